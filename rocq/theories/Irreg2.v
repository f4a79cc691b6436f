(* The double series: an irregular solid harmonic about t, moved by a + b, expanded in both a and b and cut off in each separately. *)
From Coq Require Import Reals Lia Lra.
From Coquelicot Require Import Coquelicot.
From Verif Require Import Tri Solid TranslationsProofs CDeriv Legendre Addition Newton CGOrth Irreg.
From Verif Require Export SeriesSpec.
From Verif Require Import Cplx.
Open Scope C_scope.

Lemma binom_le (a b : R) : (0 <= a)%R -> (0 <= b)%R -> forall N i k : nat, (i + k = N)%nat -> (INR (fact N) * a ^ i * b ^ k <= (a + b) ^ N * INR (fact i) * INR (fact k))%R.
Proof.
  intros Ha Hb. induction N as [|N IH]; intros i k E.
  - replace i with 0%nat by lia. replace k with 0%nat by lia. simpl. lra.
  - assert (F1 : (INR i * (INR (fact N) * a ^ i * b ^ k) <= a * ((a + b) ^ N * INR (fact i) * INR (fact k)))%R).
    { destruct i as [|i]. { simpl INR at 1. rewrite Rmult_0_l. apply Rmult_le_pos; [exact Ha|]. apply Rmult_le_pos; [apply Rmult_le_pos; [apply pow_le; lra|apply pos_INR]|apply pos_INR]. }
      assert (I := IH i k ltac:(lia)). change (fact (S i)) with (S i * fact i)%nat. rewrite mult_INR, <- tech_pow_Rmult.
      replace (INR (S i) * (INR (fact N) * (a * a ^ i) * b ^ k))%R with (INR (S i) * a * (INR (fact N) * a ^ i * b ^ k))%R by ring.
      replace (a * ((a + b) ^ N * (INR (S i) * INR (fact i)) * INR (fact k)))%R with (INR (S i) * a * ((a + b) ^ N * INR (fact i) * INR (fact k)))%R by ring.
      apply Rmult_le_compat_l; [apply Rmult_le_pos; [apply pos_INR|exact Ha]|exact I]. }
    assert (F2 : (INR k * (INR (fact N) * a ^ i * b ^ k) <= b * ((a + b) ^ N * INR (fact i) * INR (fact k)))%R).
    { destruct k as [|k]. { simpl INR at 1. rewrite Rmult_0_l. apply Rmult_le_pos; [exact Hb|]. apply Rmult_le_pos; [apply Rmult_le_pos; [apply pow_le; lra|apply pos_INR]|apply pos_INR]. }
      assert (I := IH i k ltac:(lia)). change (fact (S k)) with (S k * fact k)%nat. rewrite mult_INR, <- tech_pow_Rmult.
      replace (INR (S k) * (INR (fact N) * a ^ i * (b * b ^ k)))%R with (INR (S k) * b * (INR (fact N) * a ^ i * b ^ k))%R by ring.
      replace (b * ((a + b) ^ N * INR (fact i) * (INR (S k) * INR (fact k))))%R with (INR (S k) * b * ((a + b) ^ N * INR (fact i) * INR (fact k)))%R by ring.
      apply Rmult_le_compat_l; [apply Rmult_le_pos; [apply pos_INR|exact Hb]|exact I]. }
    change (fact (S N)) with (S N * fact N)%nat. rewrite mult_INR, <- tech_pow_Rmult.
    replace (INR (S N)) with (INR i + INR k)%R by (rewrite <- plus_INR; f_equal; lia).
    replace ((INR i + INR k) * INR (fact N) * a ^ i * b ^ k)%R with (INR i * (INR (fact N) * a ^ i * b ^ k) + INR k * (INR (fact N) * a ^ i * b ^ k))%R by ring. lra.
Qed.
Lemma zbinom_le a b i k : (0 <= a)%R -> (0 <= b)%R -> (0 <= i)%Z -> (0 <= k)%Z ->
  (zfact (i + k) * (a ^ Z.to_nat i * b ^ Z.to_nat k) <= (a + b) ^ Z.to_nat (i + k) * (zfact i * zfact k))%R.
Proof.
  intros Ha Hb Hi Hk. assert (B := binom_le a b Ha Hb (Z.to_nat (i + k)) (Z.to_nat i) (Z.to_nat k) ltac:(lia)). unfold zfact. lra.
Qed.
Lemma wfac_binom a b l n m k : (0 <= a)%R -> (0 <= b)%R -> (Z.abs m <= l)%Z -> (Z.abs k <= n)%Z ->
  (sqrt (wfac (l + n) (m + k)) * (a ^ Z.to_nat l * b ^ Z.to_nat n) <= (a + b) ^ Z.to_nat (l + n) * (sqrt (wfac l m) * sqrt (wfac n k)))%R.
Proof.
  intros Ha Hb Hm Hk. assert (H1 := zbinom_le a b (l + m) (n + k) Ha Hb ltac:(lia) ltac:(lia)). assert (H2 := zbinom_le a b (l - m) (n - k) Ha Hb ltac:(lia) ltac:(lia)).
  assert (W0 := wfac_pos (l + n) (m + k)). assert (W1 := wfac_pos l m). assert (W2 := wfac_pos n k).
  assert (Ppow : forall x j, (0 <= x)%R -> (0 <= x ^ j)%R) by (intros; now apply pow_le).
  apply Rsqr_incr_0_var.
  2:{ apply Rmult_le_pos; [apply Ppow; lra|apply Rmult_le_pos; apply sqrt_pos]. }
  unfold Rsqr.
  replace (sqrt (wfac (l + n) (m + k)) * (a ^ Z.to_nat l * b ^ Z.to_nat n) * (sqrt (wfac (l + n) (m + k)) * (a ^ Z.to_nat l * b ^ Z.to_nat n)))%R
    with ((sqrt (wfac (l + n) (m + k)) * sqrt (wfac (l + n) (m + k))) * ((a ^ Z.to_nat l * a ^ Z.to_nat l) * (b ^ Z.to_nat n * b ^ Z.to_nat n)))%R by ring.
  replace ((a + b) ^ Z.to_nat (l + n) * (sqrt (wfac l m) * sqrt (wfac n k)) * ((a + b) ^ Z.to_nat (l + n) * (sqrt (wfac l m) * sqrt (wfac n k))))%R
    with (((a + b) ^ Z.to_nat (l + n) * (a + b) ^ Z.to_nat (l + n)) * ((sqrt (wfac l m) * sqrt (wfac l m)) * (sqrt (wfac n k) * sqrt (wfac n k))))%R by ring.
  rewrite !sqrt_sqrt by lra. rewrite <- !pow_add.
  replace (Z.to_nat l + Z.to_nat l)%nat with (Z.to_nat (l + m) + Z.to_nat (l - m))%nat by lia. replace (Z.to_nat n + Z.to_nat n)%nat with (Z.to_nat (n + k) + Z.to_nat (n - k))%nat by lia.
  replace (Z.to_nat (l + n) + Z.to_nat (l + n))%nat with (Z.to_nat (l + m + (n + k)) + Z.to_nat (l - m + (n - k)))%nat by lia. rewrite !pow_add.
  unfold wfac. replace (l + n + (m + k))%Z with (l + m + (n + k))%Z by ring. replace (l + n - (m + k))%Z with (l - m + (n - k))%Z by ring.
  assert (Q1 : (0 <= zfact (l + m + (n + k)) * (a ^ Z.to_nat (l + m) * b ^ Z.to_nat (n + k)))%R) by (apply Rmult_le_pos; [apply Rlt_le, zfact_pos|apply Rmult_le_pos; now apply Ppow]).
  assert (Q2 : (0 <= zfact (l - m + (n - k)) * (a ^ Z.to_nat (l - m) * b ^ Z.to_nat (n - k)))%R) by (apply Rmult_le_pos; [apply Rlt_le, zfact_pos|apply Rmult_le_pos; now apply Ppow]).
  assert (G := Rmult_le_compat _ _ _ _ Q1 Q2 H1 H2).
  set (z1 := zfact (l + m + (n + k))) in *. set (z2 := zfact (l - m + (n - k))) in *. eapply Rle_trans; [|eapply Rle_trans; [exact G|]]; apply Req_le; ring.
Qed.
(* one term of the double series *)
Definition TT (L M l n : Z) (a b t : vec) : C :=
  zsum (- l) (l + 1) (fun m => zsum (- n) (n + 1) (fun k => S_ l m a * S_ n k b * K_ (L + l + n) (M + m + k) t)).
Lemma TT_bound L M l n a b t : (Z.abs M <= L)%Z -> (0 <= l)%Z -> (0 <= n)%Z -> (0 < vnorm t)%R ->
  (Cmod (TT L M l n a b t) <= IZR (2 * l + 1) * (IZR (2 * n + 1) * (IZR (2 * L + 2 * (l + n)) ^ Z.to_nat L * ((vnorm a + vnorm b) ^ Z.to_nat (l + n) / vnorm t ^ Z.to_nat (L + l + n + 1)))))%R.
Proof.
  intros HM Hl Hn Ht. unfold TT. replace (2 * l + 1)%Z with (l + 1 - - l)%Z by ring. apply Cmod_zsum; [lia|]. intros m Hm.
  replace (2 * n + 1)%Z with (n + 1 - - n)%Z by ring. apply Cmod_zsum; [lia|]. intros k Hk. rewrite !Cmod_mult.
  assert (B1 := S_bound l m a ltac:(lia)). assert (B2 := S_bound n k b ltac:(lia)). assert (B3 := K_bound (L + l + n) (M + m + k) t ltac:(lia) Ht).
  assert (B4 := wfac_ratio L M (l + n) (m + k) HM ltac:(lia)).
  assert (Ha := vnorm_ge0 a). assert (Hb := vnorm_ge0 b). assert (B5 := wfac_binom (vnorm a) (vnorm b) l n m k Ha Hb ltac:(lia) ltac:(lia)).
  replace (L + (l + n))%Z with (L + l + n)%Z in B4 by ring. replace (M + (m + k))%Z with (M + m + k)%Z in B4 by ring.
  assert (W1 : (0 < sqrt (wfac l m))%R) by apply sqrt_lt_R0, wfac_pos. assert (W2 : (0 < sqrt (wfac n k))%R) by apply sqrt_lt_R0, wfac_pos. assert (W3 := sqrt_pos (wfac (l + n) (m + k))).
  assert (P1 := Cmod_ge_0 (S_ l m a)). assert (P2 := Cmod_ge_0 (S_ n k b)). assert (Pr : (0 < vnorm t ^ Z.to_nat (L + l + n + 1))%R) by now apply pow_lt.
  set (w1 := sqrt (wfac l m)) in *. set (w2 := sqrt (wfac n k)) in *. set (w3 := sqrt (wfac (l + n) (m + k))) in *. set (w4 := sqrt (wfac (L + l + n) _)) in *.
  set (s1 := Cmod (S_ l m a)) in *. set (s2 := Cmod (S_ n k b)) in *. set (kk := Cmod (K_ _ _ _)) in *. set (r := (vnorm t ^ _)%R) in *. set (x := (IZR _ ^ Z.to_nat L)%R) in *.
  set (al := (vnorm a ^ Z.to_nat l)%R) in *. set (bn := (vnorm b ^ Z.to_nat n)%R) in *. set (ab := ((vnorm a + vnorm b) ^ _)%R) in *.
  assert (Hx : (0 <= x)%R) by (apply pow_le, (IZR_le 0); lia).
  assert (G : (w3 * (s1 * s2) <= ab)%R).
  { apply (Rmult_le_reg_r (w1 * w2)); [now apply Rmult_lt_0_compat|]. eapply Rle_trans; [|exact B5].
    replace (w3 * (s1 * s2) * (w1 * w2))%R with (w3 * ((w1 * s1) * (w2 * s2)))%R by ring. apply Rmult_le_compat_l; [exact W3|]. apply Rmult_le_compat; [apply Rmult_le_pos; lra|apply Rmult_le_pos; lra|exact B1|exact B2]. }
  apply Rle_trans with (s1 * s2 * (x * w3 / r))%R.
  - apply Rmult_le_compat_l; [now apply Rmult_le_pos|]. eapply Rle_trans; [exact B3|]. apply Rmult_le_compat_r; [apply Rlt_le, Rinv_0_lt_compat, Pr|exact B4].
  - replace (s1 * s2 * (x * w3 / r))%R with (x / r * (w3 * (s1 * s2)))%R by (field; lra). replace (x * (ab / r))%R with (x / r * ab)%R by (field; lra).
    apply Rmult_le_compat_l; [|exact G]. apply Rmult_le_pos; [exact Hx|apply Rlt_le, Rinv_0_lt_compat, Pr].
Qed.
(* terms of total degree j *)
Lemma S_vadd j M a b : (0 <= j)%Z -> S_ j M (vadd a b) = zsum 0 (j + 1) (fun l => zsum (- l) (l + 1) (fun m => S_ l m a * S_ (j - l) (M - m) b)).
Proof.
  intros Hj. destruct a as [[x y] z], b as [[x' y'] z']. unfold vadd, S_, solid.
  replace (- (RtoC (x + x') - Ci * RtoC (y + y')) / RtoC 2) with (- (RtoC x - Ci * RtoC y) / RtoC 2 + - (RtoC x' - Ci * RtoC y') / RtoC 2) by (rewrite !RtoC_plus; field).
  replace ((RtoC (x + x') + Ci * RtoC (y + y')) / RtoC 2) with ((RtoC x + Ci * RtoC y) / RtoC 2 + (RtoC x' + Ci * RtoC y') / RtoC 2) by (rewrite !RtoC_plus; field).
  rewrite RtoC_plus. now apply tri_add.
Qed.
Lemma DK_double L M j a b t : (0 <= j)%Z -> DK L M j (vadd a b) t = zsum 0 (j + 1) (fun l => TT L M l (j - l) a b t).
Proof.
  intros Hj. unfold DK, TT.
  rewrite (zsum_ext (- j) _ _ (fun M' => zsum 0 (j + 1) (fun l => zsum (- l) (l + 1) (fun m => S_ l m a * S_ (j - l) (M' - m) b * K_ (L + j) (M + M') t)))).
  2:{ intros k Hk. rewrite S_vadd by assumption. rewrite <- zsum_scal_r. apply zsum_ext. intros l Hl. rewrite <- zsum_scal_r. reflexivity. }
  rewrite zsum_swap. apply zsum_ext. intros l Hl. rewrite zsum_swap. apply zsum_ext. intros m Hm.
  rewrite (zsum_shift (- m) (- j)).
  rewrite (zsum_sub (- j + - m) (j + 1 + - m) (- (j - l)) (j - l + 1)); try lia.
  - apply zsum_ext. intros k Hk. replace (k - - m - m)%Z with k by ring. replace (M + (k - - m))%Z with (M + m + k)%Z by ring. replace (L + l + (j - l))%Z with (L + j)%Z by ring. reflexivity.
  - intros k Hk Hn. replace (k - - m - m)%Z with k by ring. rewrite (S_zero (j - l) k) by lia. ring.
Qed.
(* the square partial sums *)
Definition Sq (L M N1 N2 : Z) (a b t : vec) : C :=
  zsum 0 (N1 + 1) (fun l => zsum 0 (N2 + 1) (fun n => sgnC (l + n) * TT L M l n a b t)).
Lemma triangle_sum (f : Z -> Z -> C) N N1 N2 : (0 <= N)%Z -> (N <= N1)%Z -> (N <= N2)%Z ->
  zsum 0 (N + 1) (fun j => zsum 0 (j + 1) (fun l => f l (j - l)%Z)) =
  zsum 0 (N1 + 1) (fun l => zsum 0 (N2 + 1) (fun n => if (l + n <=? N)%Z then f l n else 0)).
Proof.
  intros HN H1 H2.
  transitivity (zsum 0 (N + 1) (fun j => zsum 0 (N1 + 1) (fun l => if (l <=? j)%Z then f l (j - l)%Z else 0))).
  - apply zsum_ext. intros j Hj. rewrite (zsum_sub 0 (N1 + 1) 0 (j + 1)); try lia.
    + apply zsum_ext. intros l Hl. now rewrite (proj2 (Z.leb_le l j)) by lia.
    + intros l Hl Hn. now rewrite (proj2 (Z.leb_gt l j)) by lia.
  - rewrite zsum_swap. apply zsum_ext. intros l Hl. rewrite (zsum_shift (- l) 0).
    destruct (Z_le_dec l N) as [h|h].
    + rewrite (zsum_sub (0 + - l) (N + 1 + - l) 0 (N - l + 1)); try lia.
      * rewrite (zsum_sub 0 (N2 + 1) 0 (N - l + 1)); try lia.
        -- apply zsum_ext. intros n Hn. rewrite (proj2 (Z.leb_le l (n - - l))), (proj2 (Z.leb_le (l + n) N)) by lia. f_equal. ring.
        -- intros n Hn Hn'. now rewrite (proj2 (Z.leb_gt (l + n) N)) by lia.
      * intros n Hn Hn'. now rewrite (proj2 (Z.leb_gt l (n - - l))) by lia.
    + rewrite !zsum_0; [reflexivity| |]; intros n Hn.
      * now rewrite (proj2 (Z.leb_gt (l + n) N)) by lia.
      * now rewrite (proj2 (Z.leb_gt l (n - - l))) by lia.
Qed.
Lemma zsum_minus a b f g : zsum a b f - zsum a b g = zsum a b (fun k => f k - g k).
Proof.
  transitivity (zsum a b f + RtoC (-1) * zsum a b g); [rewrite Rm1; ring|]. rewrite <- zsum_scal_l, <- zsum_plus. apply zsum_ext. intros. rewrite Rm1. ring.
Qed.
Definition sq_err (L : Z) (th r : R) (N : nat) : R :=
  (IZR (Z.of_nat N + 2) * (IZR (Z.of_nat N + 2) * (IZR (2 * Z.of_nat N + 3) * (IZR (2 * Z.of_nat N + 3) * (IZR (2 * L + 4 * Z.of_nat N + 4) ^ Z.to_nat L * (th ^ S N / r ^ Z.to_nat (L + 1)))))))%R.
Lemma square_K L M t a b (N : nat) N1 N2 : (Z.abs M <= L)%Z -> (vnorm a + vnorm b < vnorm t)%R -> (Z.of_nat N <= N1 <= Z.of_nat N + 1)%Z -> (Z.of_nat N <= N2 <= Z.of_nat N + 1)%Z ->
  (Cmod (Sq L M N1 N2 a b t - zsum 0 (Z.of_nat N + 1) (fun j => sgnC j * DK L M j (vadd a b) t))%C <= sq_err L ((vnorm a + vnorm b) / vnorm t) (vnorm t) N)%R.
Proof.
  intros HM H H1 H2. assert (Ha := vnorm_ge0 a). assert (Hb := vnorm_ge0 b). assert (Ht : (0 < vnorm t)%R) by lra.
  rewrite (zsum_ext 0 (Z.of_nat N + 1) _ (fun j => zsum 0 (j + 1) (fun l => sgnC (l + (j - l)) * TT L M l (j - l) a b t))).
  2:{ intros j Hj. rewrite DK_double, <- zsum_scal_l by lia. apply zsum_ext. intros l Hl. now replace (l + (j - l))%Z with j by ring. }
  rewrite (triangle_sum (fun l n => sgnC (l + n) * TT L M l n a b t) (Z.of_nat N) N1 N2) by lia.
  unfold Sq. rewrite zsum_minus. unfold sq_err. set (th := ((vnorm a + vnorm b) / vnorm t)%R).
  assert (Hth : (0 <= th < 1)%R). { unfold th. split; [apply Rdiv_le_0_compat; lra|]. apply (Rmult_lt_reg_r (vnorm t)); [lra|]. replace ((vnorm a + vnorm b) / vnorm t * vnorm t)%R with (vnorm a + vnorm b)%R by (field; lra). lra. }
  set (X := (IZR (2 * Z.of_nat N + 3) * (IZR (2 * Z.of_nat N + 3) * (IZR (2 * L + 4 * Z.of_nat N + 4) ^ Z.to_nat L * (th ^ S N / vnorm t ^ Z.to_nat (L + 1)))))%R).
  assert (HX0 : (0 <= X)%R).
  { unfold X. apply Rmult_le_pos; [apply (IZR_le 0); lia|]. apply Rmult_le_pos; [apply (IZR_le 0); lia|]. apply Rmult_le_pos; [apply pow_le, (IZR_le 0); lia|]. apply Rdiv_le_0_compat; [apply pow_le; lra|now apply pow_lt]. }
  apply Rle_trans with (IZR (N1 + 1 - 0) * (IZR (N2 + 1 - 0) * X))%R.
  2:{ apply Rmult_le_compat; [apply (IZR_le 0); lia|apply Rmult_le_pos; [apply (IZR_le 0); lia|exact HX0]|apply IZR_le; lia|]. apply Rmult_le_compat_r; [exact HX0|apply IZR_le; lia]. }
  apply Cmod_zsum; [lia|]. intros l Hl. rewrite zsum_minus. apply Cmod_zsum; [lia|]. intros n Hn.
  destruct (Z.leb_spec (l + n) (Z.of_nat N)) as [h|h].
  { match goal with |- (Cmod ?z <= _)%R => replace z with (RtoC 0) by ring end. rewrite Cmod_0. exact HX0. }
  match goal with |- (Cmod (?z - ?w)%C <= _)%R => change w with (RtoC 0); replace (z - RtoC 0) with z by ring end. rewrite Cmod_mult, Cmod_sgnC, Rmult_1_l.
  eapply Rle_trans; [apply TT_bound; (exact HM || exact Ht || lia)|].
  assert (Hp1 : (0 <= (vnorm a + vnorm b) ^ Z.to_nat (l + n) / vnorm t ^ Z.to_nat (L + l + n + 1))%R) by (apply Rdiv_le_0_compat; [apply pow_le; lra|now apply pow_lt]).
  assert (Hp2 : (0 <= IZR (2 * L + 2 * (l + n)) ^ Z.to_nat L)%R) by (apply pow_le, (IZR_le 0); lia).
  unfold X. apply Rmult_le_compat; [apply (IZR_le 0); lia| |apply IZR_le; lia|].
  { apply Rmult_le_pos; [apply (IZR_le 0); lia|]. now apply Rmult_le_pos. }
  apply Rmult_le_compat; [apply (IZR_le 0); lia|now apply Rmult_le_pos|apply IZR_le; lia|].
  apply Rmult_le_compat; [exact Hp2|exact Hp1| |].
  - apply pow_incr. split; [apply (IZR_le 0); lia|apply IZR_le; lia].
  - replace ((vnorm a + vnorm b) ^ Z.to_nat (l + n) / vnorm t ^ Z.to_nat (L + l + n + 1))%R with (th ^ Z.to_nat (l + n) / vnorm t ^ Z.to_nat (L + 1))%R.
    2:{ replace (Z.to_nat (L + l + n + 1)) with (Z.to_nat (l + n) + Z.to_nat (L + 1))%nat by lia. unfold th, Rdiv. rewrite pow_add, Rpow_mult_distr, pow_inv. field. split; apply pow_nonzero; lra. }
    apply Rmult_le_compat_r; [apply Rlt_le, Rinv_0_lt_compat; now apply pow_lt|].
    replace (Z.to_nat (l + n)) with (S N + (Z.to_nat (l + n) - S N))%nat by lia. rewrite pow_add. rewrite <- (Rmult_1_r (th ^ S N)) at 2.
    apply Rmult_le_compat_l; [apply pow_le; lra|]. rewrite <- (pow1 (Z.to_nat (l + n) - S N)). apply pow_incr. lra.
Qed.
Lemma sq_err_lim L th r : (0 <= L)%Z -> (0 <= th < 1)%R -> (0 < r)%R -> is_lim_seq (sq_err L th r) 0%R.
Proof.
  intros HL Hth Hr. set (l := Z.to_nat L). set (c := (2 * 2 * 3 * 3 * (2 * IZR L + 4) ^ l * (th / r ^ Z.to_nat (L + 1)))%R).
  assert (HL' : (0 <= IZR L)%R) by (apply (IZR_le 0); lia). assert (Hr' : (0 < r ^ Z.to_nat (L + 1))%R) by now apply pow_lt.
  assert (Ha : (0 <= th / r ^ Z.to_nat (L + 1))%R) by (apply Rdiv_le_0_compat; lra).
  apply (is_lim_seq_le_le (fun _ => 0%R) _ (fun n => c * (INR (S n) ^ (l + 4) * th ^ n))%R).
  - intros n. unfold sq_err. fold l. assert (P := pos_INR n). assert (HP : (1 <= INR (S n))%R) by (rewrite S_INR; lra). assert (Hqn : (0 <= th ^ n)%R) by (apply pow_le; lra).
    assert (H1 : (IZR (Z.of_nat n + 2) <= 2 * INR (S n))%R) by (rewrite plus_IZR, <- INR_IZR_INZ, S_INR; lra).
    assert (H2 : (IZR (2 * Z.of_nat n + 3) <= 3 * INR (S n))%R) by (rewrite plus_IZR, mult_IZR, <- INR_IZR_INZ, S_INR; lra).
    assert (H3 : (IZR (2 * L + 4 * Z.of_nat n + 4) ^ l <= (2 * IZR L + 4) ^ l * INR (S n) ^ l)%R).
    { rewrite <- Rpow_mult_distr. apply pow_incr. split; [apply (IZR_le 0); lia|]. rewrite !plus_IZR, !mult_IZR, <- INR_IZR_INZ, S_INR. nra. }
    assert (P1 : (0 <= IZR (Z.of_nat n + 2))%R) by (apply (IZR_le 0); lia). assert (P2 : (0 <= IZR (2 * Z.of_nat n + 3))%R) by (apply (IZR_le 0); lia).
    assert (P3 : (0 <= IZR (2 * L + 4 * Z.of_nat n + 4) ^ l)%R) by (apply pow_le, (IZR_le 0); lia).
    assert (P4 : (0 <= th ^ S n / r ^ Z.to_nat (L + 1))%R) by (apply Rdiv_le_0_compat; [apply pow_le; lra|exact Hr']).
    set (x1 := IZR (Z.of_nat n + 2)) in *. set (x2 := IZR (2 * Z.of_nat n + 3)) in *. set (x3 := (IZR (2 * L + 4 * Z.of_nat n + 4) ^ l)%R) in *.
    assert (P5 := Rmult_le_pos _ _ P3 P4). assert (P6 := Rmult_le_pos _ _ P2 P5). assert (P7 := Rmult_le_pos _ _ P2 P6). assert (P8 := Rmult_le_pos _ _ P1 P7). split; [exact (Rmult_le_pos _ _ P1 P8)|].
    replace (c * (INR (S n) ^ (l + 4) * th ^ n))%R with (2 * INR (S n) * (2 * INR (S n) * (3 * INR (S n) * (3 * INR (S n) * (((2 * IZR L + 4) ^ l * INR (S n) ^ l) * (th ^ S n / r ^ Z.to_nat (L + 1)))))))%R.
    + apply Rmult_le_compat; [exact P1|exact P8|exact H1|]. apply Rmult_le_compat; [exact P1|exact P7|exact H1|]. apply Rmult_le_compat; [exact P2|exact P6|exact H2|].
      apply Rmult_le_compat; [exact P2|exact P5|exact H2|]. apply Rmult_le_compat_r; [exact P4|exact H3].
    + unfold c. rewrite pow_add, <- tech_pow_Rmult. field. lra.
  - apply is_lim_seq_const.
  - replace 0%R with (c * 0)%R by ring. apply (is_lim_seq_scal_l _ c 0%R), poly_geom_lim, Hth.
Qed.
Lemma vnorm_triangle a b : (vnorm (vadd a b) <= vnorm a + vnorm b)%R.
Proof.
  assert (Ha := vnorm_ge0 a). assert (Hb := vnorm_ge0 b). apply Rsqr_incr_0_var; [|lra]. unfold Rsqr.
  replace (vnorm (vadd a b) * vnorm (vadd a b))%R with (vnorm (vadd a b) ^ 2)%R by ring. replace ((vnorm a + vnorm b) * (vnorm a + vnorm b))%R with (vnorm a ^ 2 + 2 * (vnorm a * vnorm b) + vnorm b ^ 2)%R by ring.
  assert (Cs : (vdot a b <= vnorm a * vnorm b)%R).
  { destruct (Rle_lt_dec (vdot a b) 0) as [h|h]; [assert (0 <= vnorm a * vnorm b)%R by (now apply Rmult_le_pos); lra|].
    rewrite !vnorm_vsq, <- sqrt_mult_alt by apply vsq_nonneg. rewrite <- (sqrt_pow2 (vdot a b)) by lra. apply sqrt_le_1_alt.
    destruct a as [[x y] z], b as [[x' y'] z']. unfold vsq, vdot. assert (T1 := pow2_ge_0 (x * y' - y * x')). assert (T2 := pow2_ge_0 (y * z' - z * y')). assert (T3 := pow2_ge_0 (z * x' - x * z')). lra. }
  rewrite !Irreg.vnorm_sq. replace (vsq (vadd a b)) with (vsq a + 2 * vdot a b + vsq b)%R by (destruct a as [[x y] z], b as [[x' y'] z']; unfold vsq, vdot, vadd; ring). lra.
Qed.
Lemma double_K L M t a b (N : nat) N1 N2 : (Z.abs M <= L)%Z -> (vnorm a + vnorm b < vnorm t)%R -> (Z.of_nat N <= N1 <= Z.of_nat N + 1)%Z -> (Z.of_nat N <= N2 <= Z.of_nat N + 1)%Z ->
  (Cmod (Sq L M N1 N2 a b t - K_ L M (vadd t (vadd a b)))%C <= sq_err L ((vnorm a + vnorm b) / vnorm t) (vnorm t) N + err_bound L (vnorm (vadd a b)) (vnorm t) N)%R.
Proof.
  intros HM H H1 H2. assert (T := vnorm_triangle a b). assert (A := square_K L M t a b N N1 N2 HM H H1 H2). assert (B := taylor_K L M t (vadd a b) N HM ltac:(lra)).
  set (s := zsum 0 (Z.of_nat N + 1) (fun j => sgnC j * DK L M j (vadd a b) t)) in *.
  replace (Sq L M N1 N2 a b t - K_ L M (vadd t (vadd a b))) with ((Sq L M N1 N2 a b t - s) + - (K_ L M (vadd t (vadd a b)) - s)) by ring.
  eapply Rle_trans; [apply Cmod_triangle|]. rewrite Cmod_opp. lra.
Qed.
