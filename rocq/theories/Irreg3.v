(* Sharp bounds for the double expansion about two centres (Irreg2.v): Laplace-style estimate over the orders. *)
From Coq Require Import Reals Lia Lra.
From Coquelicot Require Import Coquelicot.
From Verif Require Import TransRecProofs RotSpec RotationsProofs2 Tri Solid TranslationsProofs CDeriv Legendre Addition Newton CGOrth ClebschGordanProofs Irreg Irreg2 Props_Series2.
From Verif Require Import Cplx.
Open Scope R_scope.

(* ---- real sums ---- *)
Lemma rsum_le a b f g : (forall k, (a <= k < b)%Z -> f k <= g k) -> rsum a b f <= rsum a b g.
Proof.
  intros H. apply Rminus_le. rewrite <- rsum_minus. assert (K := rsum_ge0 a b (fun k => g k - f k)).
  assert (E : rsum a b (fun k => f k - g k) = - rsum a b (fun k => g k - f k)).
  { transitivity (rsum a b (fun k => -1 * (g k - f k))); [apply rsum_ext; intros; ring|]. rewrite rsum_scal_l. ring. }
  rewrite E. specialize (K ltac:(intros k Hk; specialize (H k Hk); lra)). lra.
Qed.
Lemma rsum_last a b f : (a <= b)%Z -> rsum a (b + 1) f = rsum a b f + f b.
Proof. intros H. apply RtoC_inj. rewrite RtoC_plus, !rsum_zsum. now rewrite zsum_last by lia. Qed.
Lemma rsum_split a c b f : (a <= c <= b)%Z -> rsum a b f = rsum a c f + rsum c b f.
Proof. intros H. apply RtoC_inj. rewrite RtoC_plus, !rsum_zsum. now apply zsum_split. Qed.
Lemma rsum_incl a b a' b' f : (a' <= a)%Z -> (a <= b)%Z -> (b <= b')%Z -> (forall k, (a' <= k < b')%Z -> 0 <= f k) -> rsum a b f <= rsum a' b' f.
Proof.
  intros H1 H2 H3 H. rewrite (rsum_split a' a b') by lia. rewrite (rsum_split a b b') by lia.
  assert (0 <= rsum a' a f) by (apply rsum_ge0; intros; apply H; lia). assert (0 <= rsum b b' f) by (apply rsum_ge0; intros; apply H; lia). lra.
Qed.
Lemma Cmod_zsum_le a b (f : Z -> C) (g : Z -> R) : (forall k, (a <= k < b)%Z -> Cmod (f k) <= g k) -> Cmod (zsum a b f) <= rsum a b g.
Proof.
  destruct (Z_le_dec a b) as [h|h].
  2:{ intros _. rewrite rsum_empty by lia. rewrite zsum_0 by (intros; lia). rewrite Cmod_0. lra. }
  replace b with (a + Z.of_nat (Z.to_nat (b - a)))%Z by lia. generalize (Z.to_nat (b - a)). clear. intros n. induction n as [|n IH]; intros H.
  - rewrite rsum_empty by lia. rewrite zsum_0 by (intros; lia). rewrite Cmod_0. lra.
  - replace (a + Z.of_nat (S n))%Z with (a + Z.of_nat n + 1)%Z in * by lia. rewrite rsum_last, zsum_last by lia.
    eapply Rle_trans; [apply Cmod_triangle|]. apply Rplus_le_compat; [apply IH; intros; apply H; lia|apply H; lia].
Qed.
(* Cauchy-Schwarz *)
Lemma cs1_sq a b x y : (rsum a b (fun k => x k * y k)) ^ 2 <= rsum a b (fun k => x k ^ 2) * rsum a b (fun k => y k ^ 2).
Proof.
  set (X := rsum a b (fun k => x k ^ 2)). set (Y := rsum a b (fun k => y k ^ 2)). set (P := rsum a b (fun k => x k * y k)).
  assert (G : forall s, 0 <= X * s ^ 2 + 2 * P * s + Y).
  { intros s. replace (X * s ^ 2 + 2 * P * s + Y) with (rsum a b (fun k => (s * x k + y k) ^ 2)).
    - apply rsum_ge0. intros; apply pow2_ge_0.
    - unfold X, Y, P. transitivity (rsum a b (fun k => s ^ 2 * x k ^ 2) + rsum a b (fun k => 2 * s * (x k * y k)) + rsum a b (fun k => y k ^ 2)).
      + rewrite <- !rsum_plus. apply rsum_ext. intros; ring.
      + rewrite !rsum_scal_l. ring. }
  assert (HX : 0 <= X) by (apply rsum_ge0; intros; apply pow2_ge_0). assert (HY : 0 <= Y) by (apply rsum_ge0; intros; apply pow2_ge_0).
  destruct (Req_dec X 0) as [E|E].
  - assert (P = 0); [|nra].
    unfold P. apply rsum_0. intros k Hk. assert (K := rsum_zero a b (fun k => x k ^ 2) (fun k _ => pow2_ge_0 (x k)) E k Hk). cbv beta in K.
    assert (x k = 0) by (apply Rsqr_0_uniq; unfold Rsqr; lra). rewrite H. ring.
  - specialize (G (- P / X)). assert (HX' : 0 < X) by lra.
    replace (X * (- P / X) ^ 2 + 2 * P * (- P / X) + Y) with ((X * Y - P ^ 2) / X) in G by (field; lra).
    assert (0 <= X * Y - P ^ 2); [|lra]. replace (X * Y - P ^ 2) with ((X * Y - P ^ 2) / X * X) by (field; lra). apply Rmult_le_pos; lra.
Qed.
Lemma cs1 a b x y : rsum a b (fun k => x k * y k) <= sqrt (rsum a b (fun k => x k ^ 2)) * sqrt (rsum a b (fun k => y k ^ 2)).
Proof.
  rewrite <- sqrt_mult by (apply rsum_ge0; intros; apply pow2_ge_0). eapply Rle_trans; [apply Rle_abs|].
  rewrite <- sqrt_Rsqr_abs. apply sqrt_le_1_alt. unfold Rsqr. assert (K := cs1_sq a b x y). cbn [pow] in K. rewrite Rmult_1_r in K. exact K.
Qed.

(* ---- one step of the recursion, in the square norm over the orders ---- *)
Definition conv (e : vec) (s : Z -> C) (m : Z) : C := (Av e * s (m - 1)%Z + zv e * s m + Bv e * s (m + 1)%Z)%C.
Definition nl2 (l : Z) (s : Z -> C) : R := rsum (- l) (l + 1) (fun m => Cmod (s m) ^ 2).
Lemma Cmod_sq2 (z : C) : Cmod z ^ 2 = fst z ^ 2 + snd z ^ 2.
Proof. unfold Cmod. rewrite pow2_sqrt; [reflexivity|]. assert (A := pow2_ge_0 (fst z)). assert (B := pow2_ge_0 (snd z)). lra. Qed.
Lemma conv_point x y z (a b c : C) :
  Cmod (Av (x, y, z) * a + zv (x, y, z) * b + Bv (x, y, z) * c)%C ^ 2 <=
  z ^ 2 * Cmod b ^ 2 + (x ^ 2 + y ^ 2) / 2 * (Cmod a ^ 2 + Cmod c ^ 2) + 2 * z * (Re (Cconj b * (Av (x, y, z) * a))%C - Re (Cconj c * (Av (x, y, z) * b))%C).
Proof.
  assert (K := pow2_ge_0 (Cmod (Av (x, y, z) * a - Bv (x, y, z) * c)%C)). rewrite Cmod_sq2 in K. rewrite !Cmod_sq2.
  match type of K with 0 <= ?k => match goal with |- ?l <= ?r => replace r with (l + k); [lra|] end end. clear K.
  destruct a as [a1 a2], b as [b1 b2], c as [c1 c2]. unfold Av, Bv, zv, Cconj, Re, Cdiv, Cinv, Cminus, Cplus, Cmult, Copp, RtoC, Ci. cbn [fst snd]. field.
Qed.
Lemma rsum_tele a b f : (a <= b)%Z -> rsum a b (fun m => f m - f (m + 1)%Z) = f a - f b.
Proof.
  intros H. replace b with (a + Z.of_nat (Z.to_nat (b - a)))%Z by lia. generalize (Z.to_nat (b - a)). intros n. induction n as [|n IH].
  - rewrite rsum_empty by lia. replace (a + Z.of_nat 0)%Z with a by lia. ring.
  - replace (a + Z.of_nat (S n))%Z with (a + Z.of_nat n + 1)%Z by lia. rewrite rsum_last by lia. rewrite IH. ring.
Qed.
Lemma conv_l2 e l s : (0 <= l)%Z -> (forall m, (l < Z.abs m)%Z -> s m = RtoC 0) -> nl2 (l + 1) (conv e s) <= vsq e * nl2 l s.
Proof.
  intros Hl H. destruct e as [[x y] z]. unfold nl2.
  assert (Q0 : forall m, (l < Z.abs m)%Z -> Cmod (s m) ^ 2 = 0) by (intros m Hm; rewrite H by exact Hm; rewrite Cmod_0; ring).
  assert (W : forall d, (-1 <= d <= 1)%Z -> rsum (- (l + 1)) (l + 1 + 1) (fun m => Cmod (s (m + d)%Z) ^ 2) = rsum (- l) (l + 1) (fun m => Cmod (s m) ^ 2)).
  { intros d Hd. rewrite (rsum_shift d). rewrite (rsum_ext _ _ _ (fun m => Cmod (s m) ^ 2)) by (intros k _; do 3 f_equal; ring).
    apply rsum_supp. intros k Hk. assert (Z.abs k <= l)%Z by (destruct (Z_le_dec (Z.abs k) l); [assumption|exfalso; apply Hk, Q0; lia]). lia. }
  set (h := fun m => Re (Cconj (s m) * (Av (x, y, z) * s (m - 1)%Z))%C).
  apply Rle_trans with (rsum (- (l + 1)) (l + 1 + 1) (fun m => (z ^ 2 * Cmod (s (m + 0)%Z) ^ 2 + (x ^ 2 + y ^ 2) / 2 * (Cmod (s (m + -1)%Z) ^ 2 + Cmod (s (m + 1)%Z) ^ 2)) + 2 * z * (h m - h (m + 1)%Z))).
  - apply rsum_le. intros m Hm. unfold conv, h. replace (m + 0)%Z with m by ring. replace (m + 1 - 1)%Z with m by ring. replace (m + -1)%Z with (m - 1)%Z by ring. apply conv_point.
  - rewrite !rsum_plus, !rsum_scal_l, rsum_plus, !W by lia. rewrite rsum_tele by lia.
    replace (h (- (l + 1))%Z) with 0. 2:{ unfold h. rewrite (H (- (l + 1))%Z) by lia. unfold Cconj, Cmult, Re, RtoC. cbn [fst snd]. ring. }
    replace (h (l + 1 + 1)%Z) with 0. 2:{ unfold h. rewrite (H (l + 1 + 1)%Z) by lia. unfold Cconj, Cmult, Re, RtoC. cbn [fst snd]. ring. }
    apply Req_le. unfold vsq, vdot. field.
Qed.
Lemma S_l2 (l : nat) a : nl2 (Z.of_nat l) (fun m => S_ (Z.of_nat l) m a) <= (vnorm a ^ l / INR (fact l)) ^ 2.
Proof.
  induction l as [|l IH].
  - unfold nl2. rewrite (rsum_single _ _ 0) by lia. rewrite S_tri, tri_0_0, Cmod_1. cbn. lra.
  - rewrite Nat2Z.inj_succ. unfold Z.succ. set (c := INR (S l)). assert (Hc : 0 < c) by (apply lt_0_INR; lia).
    replace (nl2 (Z.of_nat l + 1) (fun m => S_ (Z.of_nat l + 1) m a)) with (/ c ^ 2 * nl2 (Z.of_nat l + 1) (conv a (fun m => S_ (Z.of_nat l) m a))).
    + apply Rle_trans with (/ c ^ 2 * (vsq a * nl2 (Z.of_nat l) (fun m => S_ (Z.of_nat l) m a))).
      * apply Rmult_le_compat_l; [apply Rlt_le, Rinv_0_lt_compat, pow_lt, Hc|]. apply conv_l2; [lia|]. intros m Hm. now apply S_zero.
      * apply Rle_trans with (/ c ^ 2 * (vsq a * (vnorm a ^ l / INR (fact l)) ^ 2)).
        -- apply Rmult_le_compat_l; [apply Rlt_le, Rinv_0_lt_compat, pow_lt, Hc|]. apply Rmult_le_compat_l; [apply vsq_nonneg|exact IH].
        -- apply Req_le. rewrite <- Irreg.vnorm_sq. rewrite fact_simpl, mult_INR. fold c. cbn [pow]. field. split; [apply INR_fact_neq_0|lra].
    + unfold nl2. rewrite <- rsum_scal_l. apply rsum_ext. intros m Hm. unfold conv. rewrite <- S_rec, Cmod_mult.
      replace (IZR (Z.of_nat l + 1)) with c by (unfold c; rewrite INR_IZR_INZ; f_equal; lia). rewrite Cmod_pos by lra. field. lra.
Qed.
(* ---- the binomial theorem over an integer range ---- *)
Lemma rsum_f (N : nat) f : rsum 0 (Z.of_nat N + 1) f = sum_f_R0 (fun i => f (Z.of_nat i)) N.
Proof.
  induction N as [|N IH]; [cbn [sum_f_R0]; rewrite (rsum_single _ _ 0) by lia; reflexivity|].
  rewrite rsum_last by lia. cbn [sum_f_R0]. rewrite <- IH. f_equal. f_equal. lia.
Qed.
Definition bterm (N : Z) (a b : R) (i : Z) : R := zfact N / (zfact i * zfact (N - i)) * (a ^ Z.to_nat i * b ^ Z.to_nat (N - i)).
Lemma zbinomial N a b : (0 <= N)%Z -> rsum 0 (N + 1) (bterm N a b) = (a + b) ^ Z.to_nat N.
Proof.
  intros HN. rewrite binomial. rewrite <- (Z2Nat.id N) at 1 by lia. rewrite rsum_f. apply sum_eq. intros i Hi.
  unfold bterm, Binomial.C. rewrite !zf_nat. replace (N - Z.of_nat i)%Z with (Z.of_nat (Z.to_nat N - i)) by lia. rewrite zf_nat, !Nat2Z.id. 
  rewrite <- (Z2Nat.id N) at 1 by lia. rewrite zf_nat. ring.
Qed.
Lemma bterm_pos N a b i : 0 <= a -> 0 <= b -> 0 <= bterm N a b i.
Proof.
  intros Ha Hb. unfold bterm. apply Rmult_le_pos; [|apply Rmult_le_pos; now apply pow_le].
  apply Rlt_le, Rdiv_lt_0_compat; [apply zfact_pos|apply Rmult_lt_0_compat; apply zfact_pos].
Qed.

Lemma fact_zf (l : nat) : zfact (Z.of_nat l) = INR (fact l).
Proof. apply zf_nat. Qed.
(* ---- the point t on the z axis ---- *)
Lemma K_axis j M r : (0 <= j)%Z -> 0 < r -> K_ j M (0, 0, r) = if (M =? 0)%Z then RtoC (zfact j / r ^ Z.to_nat (j + 1)) else RtoC 0.
Proof.
  intros Hj Hr. unfold K_, U_. rewrite S_axis by exact Hj. assert (N : vnorm (0, 0, r) = r) by (rewrite vnorm_xyz; replace (0 ^ 2 + 0 ^ 2 + r ^ 2) with (r ^ 2) by ring; apply sqrt_pow2; lra).
  rewrite N. destruct (Z.eqb_spec M 0) as [->|h].
  - cbn [Z.opp Z.eqb]. rewrite sgnC_0. unfold wfac. rewrite Z.add_0_r, Z.sub_0_r. rewrite Cmult_1_r, <- !RtoC_mult. f_equal.
    replace (Z.to_nat (2 * j + 1)) with (Z.to_nat j + Z.to_nat (j + 1))%nat by lia. rewrite pow_add.
    assert (Hp : forall n, r ^ n <> 0) by (intros; apply pow_nonzero; lra). assert (Hz := zfact_neq0 j). field. repeat split; try apply Hp; exact Hz.
  - rewrite (proj2 (Z.eqb_neq (- M) 0)) by lia. rewrite Cmult_0_r, Cmult_0_l. reflexivity.
Qed.
Lemma TT_axis L d l n a b r : (Z.abs d <= L)%Z -> (0 <= l)%Z -> (0 <= n)%Z -> 0 < r ->
  TT L d l n a b (0, 0, r) = (RtoC (zfact (L + l + n) / r ^ Z.to_nat (L + l + n + 1)) * zsum (- n) (n + 1) (fun k => S_ n k b * S_ l (- k - d) a))%C.
Proof.
  intros Hd Hl Hn Hr. unfold TT. rewrite zsum_swap, <- zsum_scal_l. apply zsum_ext. intros k Hk.
  destruct (Z_le_dec (Z.abs (- k - d)) l) as [h|h].
  - rewrite (zsum_single _ _ (- k - d)%Z); [|lia|].
    + rewrite K_axis by (lia || exact Hr). replace (d + (- k - d) + k)%Z with 0%Z by ring. cbn [Z.eqb]. ring.
    + intros m Hm Hne. rewrite K_axis by (lia || exact Hr). rewrite (proj2 (Z.eqb_neq (d + m + k) 0)) by lia. apply Cmult_0_r.
  - rewrite (S_zero l (- k - d)) by lia. rewrite zsum_0; [ring|]. intros m Hm. rewrite K_axis by (lia || exact Hr). rewrite (proj2 (Z.eqb_neq (d + m + k) 0)) by lia. apply Cmult_0_r.
Qed.
Lemma pair_l2 (n : nat) l b u U : (0 <= l)%Z -> (forall m, (l < Z.abs m)%Z -> u m = RtoC 0) -> 0 <= U -> nl2 l u <= U ^ 2 ->
  Cmod (zsum (- Z.of_nat n) (Z.of_nat n + 1) (fun k => S_ (Z.of_nat n) k b * u (- k)%Z)%C) <= vnorm b ^ n / INR (fact n) * U.
Proof.
  intros Hl Hu HU HB. assert (Hf := INR_fact_lt_0 n). assert (Hb := vnorm_ge0 b).
  assert (H0 : 0 <= vnorm b ^ n / INR (fact n)) by (apply Rdiv_le_0_compat; [now apply pow_le|exact Hf]).
  eapply Rle_trans; [apply (Cmod_zsum_le _ _ _ (fun k => Cmod (S_ (Z.of_nat n) k b) * Cmod (u (- k)%Z)))|].
  { intros k _. rewrite Cmod_mult. lra. }
  eapply Rle_trans; [apply (cs1 _ _ (fun k => Cmod (S_ (Z.of_nat n) k b)) (fun k => Cmod (u (- k)%Z)))|].
  apply Rmult_le_compat; try apply sqrt_pos.
  - rewrite <- (sqrt_pow2 _ H0). apply sqrt_le_1_alt, S_l2.
  - rewrite <- (sqrt_pow2 _ HU). apply sqrt_le_1_alt. eapply Rle_trans; [|exact HB]. unfold nl2.
    set (N := Z.max l (Z.of_nat n)).
    apply Rle_trans with (rsum (- N) (N + 1) (fun k => Cmod (u (- k)%Z) ^ 2)); [apply rsum_incl; try lia; intros; apply pow2_ge_0|].
    rewrite (rsum_refl 0). apply Req_le.
    transitivity (rsum (- N) (N + 1) (fun k => Cmod (u k) ^ 2)).
    + replace (0 - (N + 1) + 1)%Z with (- N)%Z by ring. replace (0 - - N + 1)%Z with (N + 1)%Z by ring. apply rsum_ext. intros k _. do 3 f_equal. ring.
    + apply rsum_supp. intros k Hk. assert (Z.abs k <= l)%Z; [|lia]. destruct (Z_le_dec (Z.abs k) l); [assumption|]. exfalso. apply Hk. rewrite Hu by lia. rewrite Cmod_0. ring.
Qed.
Definition TTe (e : vec) (l n : Z) (a b t : vec) : C := (Av e * TT 1 1 l n a b t + zv e * TT 1 0 l n a b t + Bv e * TT 1 (-1) l n a b t)%C.
Lemma axis_bound l n a b r : (0 <= l)%Z -> (0 <= n)%Z -> 0 < r -> Cmod (TT 0 0 l n a b (0, 0, r)) <= bterm (l + n) (vnorm a) (vnorm b) l / r ^ Z.to_nat (l + n + 1).
Proof.
  intros Hl Hn Hr. rewrite TT_axis by (lia || exact Hr). rewrite Z.add_0_l.
  assert (Hp : 0 < r ^ Z.to_nat (l + n + 1)) by now apply pow_lt. assert (Hz := zfact_pos (l + n)).
  rewrite Cmod_mult, Cmod_pos by (apply Rdiv_le_0_compat; lra).
  rewrite (zsum_ext _ _ _ (fun k => S_ n k b * (fun m => S_ l m a) (- k)%Z)%C) by (intros k _; do 2 f_equal; ring).
  assert (B : Cmod (zsum (- n) (n + 1) (fun k => S_ n k b * (fun m => S_ l m a) (- k)%Z)%C) <= vnorm b ^ Z.to_nat n / INR (fact (Z.to_nat n)) * (vnorm a ^ Z.to_nat l / INR (fact (Z.to_nat l)))).
  { assert (Q := pair_l2 (Z.to_nat n) l b (fun m => S_ l m a) (vnorm a ^ Z.to_nat l / INR (fact (Z.to_nat l)))). rewrite Z2Nat.id in Q by lia. apply Q; clear Q; [exact Hl|intros; now apply S_zero| |].
    - apply Rdiv_le_0_compat; [apply pow_le, vnorm_ge0|apply INR_fact_lt_0].
    - assert (Q := S_l2 (Z.to_nat l) a). rewrite Z2Nat.id in Q by lia. exact Q. }
  eapply Rle_trans; [apply Rmult_le_compat_l; [apply Rdiv_le_0_compat; lra|exact B]|]. apply Req_le. unfold bterm.
  replace (l + n - l)%Z with n by ring. rewrite <- !fact_zf, !Z2Nat.id by lia. assert (Z1 := zfact_neq0 l). assert (Z2 := zfact_neq0 n). field. repeat split; try lra; assumption.
Qed.
Lemma axis_bound_e e l n a b r : (0 <= l)%Z -> (0 <= n)%Z -> 0 < r ->
  Cmod (TTe e l n a b (0, 0, r)) <= vnorm e * IZR (l + n + 1) * bterm (l + n) (vnorm a) (vnorm b) l / r ^ Z.to_nat (l + n + 2).
Proof.
  intros Hl Hn Hr. unfold TTe. rewrite !TT_axis by (lia || exact Hr). replace (1 + l + n)%Z with (l + n + 1)%Z by ring. replace (l + n + 1 + 1)%Z with (l + n + 2)%Z by ring.
  assert (Hp : 0 < r ^ Z.to_nat (l + n + 2)) by now apply pow_lt. assert (Hz := zfact_pos (l + n + 1)). set (c := zfact (l + n + 1) / r ^ Z.to_nat (l + n + 2)).
  assert (Hc : 0 <= c) by (apply Rdiv_le_0_compat; lra).
  match goal with |- Cmod ?z <= _ => replace z with (RtoC c * zsum (- n) (n + 1) (fun k => S_ n k b * conv e (fun m => S_ l m a) (- k)%Z))%C end.
  2:{ unfold conv. rewrite (zsum_ext _ _ _ (fun k => (Av e * (S_ n k b * S_ l (- k - 1) a) + zv e * (S_ n k b * S_ l (- k - 0) a)) + Bv e * (S_ n k b * S_ l (- k - -1) a))%C).
      - rewrite !zsum_plus, !zsum_scal_l. ring.
      - intros k _. replace (- k - 0)%Z with (- k)%Z by ring. replace (- k - -1)%Z with (- k + 1)%Z by ring. ring. }
  rewrite Cmod_mult, Cmod_pos by exact Hc.
  assert (HU : 0 <= vnorm a ^ Z.to_nat l / INR (fact (Z.to_nat l))) by (apply Rdiv_le_0_compat; [apply pow_le, vnorm_ge0|apply INR_fact_lt_0]).
  assert (B : Cmod (zsum (- n) (n + 1) (fun k => S_ n k b * conv e (fun m => S_ l m a) (- k)%Z)%C) <= vnorm b ^ Z.to_nat n / INR (fact (Z.to_nat n)) * (vnorm e * (vnorm a ^ Z.to_nat l / INR (fact (Z.to_nat l))))).
  { assert (Q := pair_l2 (Z.to_nat n) (l + 1) b (conv e (fun m => S_ l m a)) (vnorm e * (vnorm a ^ Z.to_nat l / INR (fact (Z.to_nat l))))). rewrite Z2Nat.id in Q by lia. apply Q; clear Q; [lia| | |].
    - intros m Hm. unfold conv. rewrite !S_zero by lia. ring.
    - apply Rmult_le_pos; [apply vnorm_ge0|exact HU].
    - eapply Rle_trans; [apply conv_l2; [exact Hl|intros; now apply S_zero]|]. rewrite Rpow_mult_distr, Irreg.vnorm_sq. apply Rmult_le_compat_l; [apply vsq_nonneg|].
      assert (Q := S_l2 (Z.to_nat l) a). rewrite Z2Nat.id in Q by lia. exact Q. }
  eapply Rle_trans; [apply Rmult_le_compat_l; [exact Hc|exact B]|]. apply Req_le. unfold bterm, c. rewrite zfact_succ by lia.
  replace (l + n - l)%Z with n by ring. rewrite <- !fact_zf, !Z2Nat.id by lia. assert (Z1 := zfact_neq0 l). assert (Z2 := zfact_neq0 n). field. repeat split; try lra; assumption.
Qed.
(* ---- the general point t: rotate it onto the axis ---- *)
Lemma poly_zero (n : nat) : forall c : Z -> C, (forall u : R, zsum 0 (Z.of_nat n) (fun l => RtoC (u ^ Z.to_nat l) * c l)%C = RtoC 0) -> forall l, (0 <= l < Z.of_nat n)%Z -> c l = RtoC 0.
Proof.
  induction n as [|n IH]; intros c H l Hl; [lia|].
  assert (D : forall u, zsum 0 (Z.of_nat n) (fun l => RtoC (u ^ Z.to_nat l) * (RtoC (IZR (l + 1)) * c (l + 1)%Z))%C = RtoC 0).
  { intros u. apply (cder_unique (fun u => zsum 0 (Z.of_nat (S n)) (fun l => RtoC (u ^ Z.to_nat l) * c l)%C) u).
    - eapply cder_val; [|apply (cder_zsum 0 (Z.of_nat (S n)) (fun l u => RtoC (u ^ Z.to_nat l) * c l)%C u (fun l => RtoC (INR (Z.to_nat l) * u ^ pred (Z.to_nat l)) * c l)%C)].
      + cbv beta. rewrite zsum_first by lia. change (Z.to_nat 0) with 0%nat. cbn [INR]. rewrite Rmult_0_l, Cmult_0_l, Cplus_0_l. rewrite (zsum_shift (-1)).
        replace (0 + 1 + -1)%Z with 0%Z by ring. replace (Z.of_nat (S n) + -1)%Z with (Z.of_nat n) by lia. apply zsum_ext. intros k Hk.
        replace (k - -1)%Z with (k + 1)%Z by ring. replace (Z.to_nat (k + 1)) with (S (Z.to_nat k)) by lia. cbn [pred]. rewrite RtoC_mult. replace (INR (S (Z.to_nat k))) with (IZR (k + 1)) by (rewrite INR_IZR_INZ; f_equal; lia). ring.
      + intros k Hk. apply (cder_scal_r (c k) (fun u => RtoC (u ^ Z.to_nat k))). apply (cder_RtoC (fun u => u ^ Z.to_nat k)).
        eapply is_derive_eq; [apply (is_derive_pow (fun x : R => x) (Z.to_nat k) u 1); apply (is_derive_id (K := R_AbsRing))|ring].
    - apply (cder_ext (fun _ => RtoC 0)); [intros; symmetry; apply H|apply cder_const]. }
  assert (C1 : forall k, (0 <= k < Z.of_nat n)%Z -> c (k + 1)%Z = RtoC 0).
  { intros k Hk. assert (E := IH (fun l => RtoC (IZR (l + 1)) * c (l + 1)%Z)%C D k Hk). cbv beta in E. apply (Cmul_reg (RtoC (IZR (k + 1)))); [apply RtoC_neq0, not_0_IZR; lia|]. rewrite E. ring. }
  destruct (Z.eq_dec l 0) as [->|h]; [|replace l with (l - 1 + 1)%Z by ring; apply C1; lia].
  specialize (H 0). rewrite zsum_first in H by lia. rewrite zsum_0 in H; [|intros k Hk; replace k with (k - 1 + 1)%Z by ring; rewrite C1 by lia; ring].
  change (0 ^ Z.to_nat 0) with 1 in H. rewrite <- H. ring.
Qed.
Lemma Av_scal u a : Av (vscal u a) = (RtoC u * Av a)%C.
Proof. destruct a as [[x y] z]. unfold Av, vscal. rewrite !RtoC_mult. field. Qed.
Lemma Bv_scal u a : Bv (vscal u a) = (RtoC u * Bv a)%C.
Proof. destruct a as [[x y] z]. unfold Bv, vscal. rewrite !RtoC_mult. field. Qed.
Lemma zv_scal u a : zv (vscal u a) = (RtoC u * zv a)%C.
Proof. destruct a as [[x y] z]. unfold zv, vscal. now rewrite !RtoC_mult. Qed.
Lemma S_scal l m u a : (0 <= l)%Z -> S_ l m (vscal u a) = (RtoC (u ^ Z.to_nat l) * S_ l m a)%C.
Proof.
  intros Hl. rewrite <- (Z2Nat.id l) at 1 3 by lia. generalize (Z.to_nat l) as n. clear l Hl. intros n. revert m. induction n as [|n IH]; intros m.
  - rewrite !S_tri. change (Z.of_nat 0) with 0%Z. destruct (Z.eq_dec m 0) as [->|h]; [rewrite !tri_0_0|rewrite !tri_0 by exact h]; cbn [pow]; ring.
  - apply (Cmul_reg (RtoC (IZR (Z.of_nat n + 1)))); [apply RtoC_neq0, not_0_IZR; lia|]. replace (Z.of_nat (S n)) with (Z.of_nat n + 1)%Z by lia.
    rewrite S_rec, !IH, Av_scal, Bv_scal, zv_scal.
    transitivity (RtoC (u ^ S n) * (RtoC (IZR (Z.of_nat n + 1)) * S_ (Z.of_nat n + 1) m a))%C; [rewrite S_rec; cbn [pow]; rewrite RtoC_mult; ring|ring].
Qed.
Lemma DK_add n p v : (0 <= n)%Z -> 0 < vnorm v ->
  DK 0 0 n p v = (RtoC (4 * PI / (2 * IZR n + 1) / vnorm v ^ Z.to_nat (2 * n + 1)) * zsum (- n) (n + 1) (fun m => rsolid n m p * Cconj (rsolid n m v)))%C.
Proof.
  intros Hn Hv. unfold DK. rewrite <- zsum_scal_l. apply zsum_ext. intros m Hm. rewrite !Z.add_0_l. unfold K_, U_. rewrite (S_symm n m), !rsolid_S, Cconj_mult, Cconj_RtoC.
  assert (P := PI_RGT_0). assert (Hl : (0 <= IZR n)%R) by (apply (IZR_le 0); lia). assert (Hr : 0 < vnorm v ^ Z.to_nat (2 * n + 1)) by now apply pow_lt. set (r := vnorm v ^ Z.to_nat (2 * n + 1)) in *.
  transitivity (RtoC (wfac n m) * (sgnC m * sgnC m) * RtoC (/ r) * (S_ n m p * Cconj (S_ n m v)))%C; [ring|]. rewrite sgnC_sq.
  transitivity (RtoC (4 * PI / (2 * IZR n + 1) / r * (nrm n m * nrm n m)) * (S_ n m p * Cconj (S_ n m v)))%C; [|rewrite !RtoC_mult; ring].
  rewrite nrm_wfac by lia. rewrite Cmult_1_r, <- RtoC_mult. f_equal. f_equal. field. repeat split; lra.
Qed.
Lemma vnorm_euler a b g v : vnorm (euler a b g v) = vnorm v.
Proof. rewrite !Irreg.vnorm_vsq. f_equal. apply vdot_euler. Qed.
Lemma DK_rot x y z n p v : (0 <= n)%Z -> 0 < vnorm v -> DK 0 0 n (euler x y z p) (euler x y z v) = DK 0 0 n p v.
Proof. intros Hn Hv. rewrite !DK_add by (rewrite ?vnorm_euler; assumption). now rewrite addition_euler, vnorm_euler by exact Hn. Qed.
Lemma TT_scal l n u a b t : (0 <= l)%Z -> TT 0 0 l n (vscal u a) b t = (RtoC (u ^ Z.to_nat l) * TT 0 0 l n a b t)%C.
Proof.
  intros Hl. unfold TT. rewrite <- zsum_scal_l. apply zsum_ext. intros m _. rewrite <- zsum_scal_l. apply zsum_ext. intros k _. rewrite S_scal by exact Hl. ring.
Qed.
Lemma TT_rot x y z l n a b t : (0 <= l)%Z -> (0 <= n)%Z -> 0 < vnorm t -> TT 0 0 l n (euler x y z a) (euler x y z b) (euler x y z t) = TT 0 0 l n a b t.
Proof.
  intros Hl Hn Ht. set (j := (l + n)%Z).
  assert (H : forall i, (0 <= i < Z.of_nat (Z.to_nat (j + 1)))%Z -> (TT 0 0 i (j - i) (euler x y z a) (euler x y z b) (euler x y z t) - TT 0 0 i (j - i) a b t)%C = RtoC 0).
  { apply (poly_zero (Z.to_nat (j + 1)) (fun i => TT 0 0 i (j - i) (euler x y z a) (euler x y z b) (euler x y z t) - TT 0 0 i (j - i) a b t)%C). intros u. rewrite Z2Nat.id by lia.
    assert (E := DK_double 0 0 j (vscal u a) b t ltac:(lia)). assert (E' := DK_double 0 0 j (vscal u (euler x y z a)) (euler x y z b) (euler x y z t) ltac:(lia)).
    replace (vadd (vscal u (euler x y z a)) (euler x y z b)) with (euler x y z (vadd (vscal u a) b)) in E'.
    2:{ destruct a as [[a1 a2] a3], b as [[b1 b2] b3]. unfold euler, zrot, yrot, vadd, vscal. apply v3; ring. }
    rewrite DK_rot in E' by (lia || exact Ht). rewrite E in E'.
    rewrite (zsum_ext _ _ _ (fun i => TT 0 0 i (j - i) (vscal u (euler x y z a)) (euler x y z b) (euler x y z t) - TT 0 0 i (j - i) (vscal u a) b t)%C) by (intros i Hi; rewrite !TT_scal by lia; ring).
    rewrite Sums.zsum_minus, <- E'. ring. }
  specialize (H l ltac:(lia)). replace (j - l)%Z with n in H by (unfold j; ring). 
  match type of H with (?p - ?q)%C = _ => replace p with (p - q + q)%C by ring end. rewrite H. ring.
Qed.
Lemma cder_TT l n a b t e : (0 <= l)%Z -> cder (fun s => TT 0 0 (l + 1) n (on_line a e s) b t) 0 (TTe e l n a b t).
Proof.
  intros Hl. unfold TT at 1.
  eapply cder_val; [|apply cder_zsum; intros m Hm; apply cder_zsum; intros k Hk; apply cder_scal_r, cder_scal_r, (cder_S (l + 1) m (on_line a e)), (goes_line _ 0 a e); intros; reflexivity].
  cbv beta. rewrite on_line_0. unfold TTe.
  assert (X : forall d, (-1 <= d <= 1)%Z -> zsum (- (l + 1)) (l + 1 + 1) (fun m => zsum (- n) (n + 1) (fun k => S_ (l + 1 - 1) (m - d) a * S_ n k b * K_ (0 + (l + 1) + n) (0 + m + k) t)%C) = TT 1 d l n a b t).
  { intros d Hd. unfold TT. rewrite (zsum_sub (- (l + 1)) (l + 1 + 1) (- l + d) (l + 1 + d)); try lia.
    - rewrite (zsum_shift (- d) (- l + d)). replace (- l + d + - d)%Z with (- l)%Z by ring. replace (l + 1 + d + - d)%Z with (l + 1)%Z by ring.
      apply zsum_ext. intros m _. apply zsum_ext. intros k _. replace (l + 1 - 1)%Z with l by ring. replace (m - - d - d)%Z with m by ring. replace (0 + (l + 1) + n)%Z with (1 + l + n)%Z by ring. now replace (0 + (m - - d) + k)%Z with (d + m + k)%Z by ring.
    - intros m Hm Hm'. apply zsum_0. intros k _. rewrite (S_zero (l + 1 - 1)) by lia. ring. }
  rewrite <- !X by lia. rewrite <- !zsum_scal_l, <- !zsum_plus. apply zsum_ext. intros m _. rewrite <- !zsum_scal_l, <- !zsum_plus. apply zsum_ext. intros k _.
  replace (m - 0)%Z with m by ring. replace (m - -1)%Z with (m + 1)%Z by ring. ring.
Qed.
Lemma TTe_rot x y z e l n a b t : (0 <= l)%Z -> (0 <= n)%Z -> 0 < vnorm t -> TTe (euler x y z e) l n (euler x y z a) (euler x y z b) (euler x y z t) = TTe e l n a b t.
Proof.
  intros Hl Hn Ht. eapply cder_unique; [apply cder_TT; exact Hl|]. eapply cder_ext; [|apply cder_TT; exact Hl]. intros s. cbv beta.
  rewrite <- (TT_rot x y z) by (lia || exact Ht). f_equal. destruct a as [[a1 a2] a3], e as [[e1 e2] e3]. unfold euler, zrot, yrot, on_line. apply v3; ring.
Qed.
Lemma to_axis t : 0 < vnorm t -> exists x y z, euler x y z (0, 0, vnorm t) = t /\ forall v, exists u, euler x y z u = v.
Proof.
  intros Ht. exists (tphi t), (ttheta t), (tphi t). split; [apply euler_axis; lra|]. intros v. exists (euler (- tphi t) (- ttheta t) (- tphi t) v). unfold euler. now rewrite Addition.zrot_inv', Addition.yrot_inv', Addition.zrot_inv'.
Qed.
(* the bounds: attained when everything is on one line *)
Lemma TT_sharp l n a b t : (0 <= l)%Z -> (0 <= n)%Z -> 0 < vnorm t -> Cmod (TT 0 0 l n a b t) <= bterm (l + n) (vnorm a) (vnorm b) l / vnorm t ^ Z.to_nat (l + n + 1).
Proof.
  intros Hl Hn Ht. destruct (to_axis t Ht) as (x & y & z & Et & Sv). destruct (Sv a) as [a' <-]. destruct (Sv b) as [b' <-]. rewrite <- Et at 1.
  assert (N : vnorm (0, 0, vnorm t) = vnorm t) by (rewrite <- (vnorm_euler x y z), Et; reflexivity).
  rewrite TT_rot by (lia || rewrite N; exact Ht). rewrite !vnorm_euler. now apply axis_bound.
Qed.
Lemma TTe_sharp e l n a b t : (0 <= l)%Z -> (0 <= n)%Z -> 0 < vnorm t -> Cmod (TTe e l n a b t) <= vnorm e * IZR (l + n + 1) * bterm (l + n) (vnorm a) (vnorm b) l / vnorm t ^ Z.to_nat (l + n + 2).
Proof.
  intros Hl Hn Ht. destruct (to_axis t Ht) as (x & y & z & Et & Sv). destruct (Sv a) as [a' <-]. destruct (Sv b) as [b' <-]. destruct (Sv e) as [e' <-]. rewrite <- Et at 1.
  assert (N : vnorm (0, 0, vnorm t) = vnorm t) by (rewrite <- (vnorm_euler x y z), Et; reflexivity).
  rewrite TTe_rot by (lia || rewrite N; exact Ht). rewrite !vnorm_euler. now apply axis_bound_e.
Qed.
(* ---- what a square sum leaves out ---- *)
Lemma rtriangle_sum (f : Z -> Z -> R) N : (0 <= N)%Z ->
  rsum 0 (N + 1) (fun j => rsum 0 (j + 1) (fun l => f l (j - l)%Z)) = rsum 0 (N + 1) (fun l => rsum 0 (N + 1) (fun n => if (l + n <=? N)%Z then f l n else 0)).
Proof.
  intros HN. apply RtoC_inj. rewrite !rsum_zsum.
  rewrite (zsum_ext _ _ _ (fun j => zsum 0 (j + 1) (fun l => RtoC (f l (j - l)%Z)))) by (intros; apply rsum_zsum).
  rewrite (triangle_sum (fun l n => RtoC (f l n)) N N N) by lia. apply zsum_ext. intros l _. rewrite rsum_zsum. apply zsum_ext. intros n _. now destruct (l + n <=? N)%Z.
Qed.
Lemma square_tail (f : Z -> Z -> C) (c : Z -> R) A B N N1 N2 N' : 0 <= A -> 0 <= B -> (0 <= N + 1)%Z -> (forall j, (0 <= j)%Z -> 0 <= c j) ->
  (forall l n, (0 <= l)%Z -> (0 <= n)%Z -> Cmod (f l n) <= c (l + n)%Z * bterm (l + n) A B l) ->
  (N <= N1 <= N')%Z -> (N <= N2 <= N')%Z ->
  Cmod (zsum 0 (N' + 1) (fun l => zsum 0 (N' + 1) (f l)) - zsum 0 (N1 + 1) (fun l => zsum 0 (N2 + 1) (f l)))%C <= rsum (N + 1) (2 * N' + 1) (fun j => c j * (A + B) ^ Z.to_nat j).
Proof.
  intros HA HB HN Hc Hf H1 H2.
  assert (E : zsum 0 (N1 + 1) (fun l => zsum 0 (N2 + 1) (f l)) = zsum 0 (N' + 1) (fun l => zsum 0 (N' + 1) (fun n => if ((l <=? N1) && (n <=? N2))%Z%bool then f l n else RtoC 0))).
  { symmetry. rewrite (zsum_sub 0 (N' + 1) 0 (N1 + 1)); try lia.
    - apply zsum_ext. intros l Hl. rewrite (zsum_sub 0 (N' + 1) 0 (N2 + 1)); try lia.
      + apply zsum_ext. intros n Hn. rewrite (proj2 (Z.leb_le l N1)), (proj2 (Z.leb_le n N2)) by lia. reflexivity.
      + intros n Hn Hn'. rewrite (proj2 (Z.leb_gt n N2)), Bool.andb_false_r by lia. reflexivity.
    - intros l Hl Hl'. apply zsum_0. intros n _. rewrite (proj2 (Z.leb_gt l N1)) by lia. reflexivity. }
  rewrite E, <- Sums.zsum_minus. set (M := (2 * N')%Z).
  set (g := fun l n => if (N <? l + n)%Z then c (l + n)%Z * bterm (l + n) A B l else 0).
  assert (Hg : forall l n, (0 <= l)%Z -> (0 <= n)%Z -> 0 <= g l n). { intros l n Hl Hn. unfold g. destruct (N <? l + n)%Z; [|lra]. apply Rmult_le_pos; [apply Hc; lia|now apply bterm_pos]. }
  apply Rle_trans with (rsum 0 (N' + 1) (fun l => rsum 0 (N' + 1) (fun n => if (l + n <=? M)%Z then g l n else 0))).
  { apply Cmod_zsum_le. intros l Hl. rewrite <- Sums.zsum_minus. apply Cmod_zsum_le. intros n Hn. rewrite (proj2 (Z.leb_le (l + n) M)) by (unfold M; lia).
    destruct ((l <=? N1) && (n <=? N2))%Z%bool eqn:Eb.
    - match goal with |- Cmod ?z <= _ => replace z with (RtoC 0) by ring end. rewrite Cmod_0. apply Hg; lia.
    - match goal with |- Cmod ?z <= _ => replace z with (f l n) by ring end. unfold g.
      assert (N < l + n)%Z. { apply Bool.andb_false_iff in Eb. destruct Eb as [Eb|Eb]; apply Z.leb_gt in Eb; lia. } rewrite (proj2 (Z.ltb_lt N (l + n))) by assumption. apply Hf; lia. }
  assert (Hg' : forall l n, (0 <= l)%Z -> (0 <= n)%Z -> 0 <= (if (l + n <=? M)%Z then g l n else 0)) by (intros l n Hl Hn; destruct (l + n <=? M)%Z; [now apply Hg|lra]).
  apply Rle_trans with (rsum 0 (M + 1) (fun l => rsum 0 (M + 1) (fun n => if (l + n <=? M)%Z then g l n else 0))).
  { destruct (Z_le_dec 0 N') as [h|h]; [|rewrite rsum_empty by lia; apply rsum_ge0; intros; apply rsum_ge0; intros; apply Hg'; lia].
    apply Rle_trans with (rsum 0 (N' + 1) (fun l => rsum 0 (M + 1) (fun n => if (l + n <=? M)%Z then g l n else 0))).
    - apply rsum_le. intros l Hl. apply rsum_incl; try (unfold M; lia). intros; apply Hg'; lia.
    - apply rsum_incl; try (unfold M; lia). intros l Hl. apply rsum_ge0. intros; apply Hg'; lia. }
  destruct (Z_le_dec 0 M) as [h|h]; [|rewrite !rsum_empty by lia; lra].
  rewrite <- rtriangle_sum by exact h. 
  apply Rle_trans with (rsum 0 (M + 1) (fun j => if (N <? j)%Z then c j * (A + B) ^ Z.to_nat j else 0)).
  - apply rsum_le. intros j Hj. unfold g. destruct (Z.ltb_spec N j) as [k|k].
    + apply Req_le. rewrite <- zbinomial by lia. rewrite <- rsum_scal_l. apply rsum_ext. intros l Hl. replace (l + (j - l))%Z with j by ring. rewrite (proj2 (Z.ltb_lt N j)) by lia. reflexivity.
    + rewrite rsum_0; [lra|]. intros l Hl. replace (l + (j - l))%Z with j by ring. rewrite (proj2 (Z.ltb_ge N j)) by lia. reflexivity.
  - apply Req_le. destruct (Z_le_dec (N + 1) (M + 1)) as [k|k].
    + rewrite (rsum_split 0 (N + 1) (M + 1)) by lia. rewrite rsum_0; [|intros j Hj; rewrite (proj2 (Z.ltb_ge N j)) by lia; reflexivity].
      rewrite Rplus_0_l. apply rsum_ext. intros j Hj. rewrite (proj2 (Z.ltb_lt N j)) by lia. reflexivity.
    + exfalso. lia.
Qed.
(* the tails of the two series *)
Lemma geo_tail th (N : nat) M : 0 <= th < 1 -> rsum (Z.of_nat N) M (fun j => th ^ Z.to_nat j) <= th ^ N / (1 - th).
Proof.
  intros H. destruct (Z_le_dec (Z.of_nat N) M) as [h|h].
  - rewrite (rsum_ext _ _ _ (fun j => (fun j => th ^ Z.to_nat j / (1 - th)) j - (fun j => th ^ Z.to_nat j / (1 - th)) (j + 1)%Z)).
    + rewrite rsum_tele by exact h. rewrite Nat2Z.id. assert (0 <= th ^ Z.to_nat M / (1 - th)) by (apply Rdiv_le_0_compat; [apply pow_le|]; lra). lra.
    + intros j Hj. cbv beta. replace (Z.to_nat (j + 1)) with (S (Z.to_nat j)) by lia. cbn [pow]. field. lra.
  - rewrite rsum_empty by lia. apply Rdiv_le_0_compat; [apply pow_le|]; lra.
Qed.
Definition gsum (th : R) (n : nat) : R := th ^ n * (INR n + 1 - INR n * th) / (1 - th) ^ 2.
Lemma gsum_pos th n : 0 <= th < 1 -> 0 <= gsum th n.
Proof.
  intros H. unfold gsum. assert (Hn := pos_INR n). apply Rdiv_le_0_compat; [|apply pow_lt; lra]. apply Rmult_le_pos; [apply pow_le; lra|]. assert (0 <= INR n * (1 - th)) by (apply Rmult_le_pos; lra). lra.
Qed.
Lemma lin_tail th (N : nat) M : 0 <= th < 1 -> rsum (Z.of_nat N) M (fun j => IZR (j + 1) * th ^ Z.to_nat j) <= gsum th N.
Proof.
  intros H. destruct (Z_le_dec (Z.of_nat N) M) as [h|h].
  - rewrite (rsum_ext _ _ _ (fun j => (fun j => gsum th (Z.to_nat j)) j - (fun j => gsum th (Z.to_nat j)) (j + 1)%Z)).
    + rewrite rsum_tele by exact h. rewrite Nat2Z.id. assert (K := gsum_pos th (Z.to_nat M) H). lra.
    + intros j Hj. cbv beta. replace (Z.to_nat (j + 1)) with (S (Z.to_nat j)) by lia. replace (IZR (j + 1)) with (INR (Z.to_nat j) + 1) by (rewrite INR_IZR_INZ, Z2Nat.id, plus_IZR by lia; reflexivity).
      unfold gsum. rewrite S_INR. cbn [pow]. field. lra.
  - rewrite rsum_empty by lia. now apply gsum_pos.
Qed.
