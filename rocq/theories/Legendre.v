(* The Legendre polynomials in homogeneous form and their generating functions
   (used for C46: the multipole expansion converges to the Newtonian field). *)
From Coq Require Import Reals Lra Lia ZArith.
From Coquelicot Require Import Coquelicot.
Open Scope R_scope.

(* (HL n, HL (n+1)) where HL n d r2 = r2^(n/2) P_n (d / r2^(1/2)) *)
Fixpoint hlp (d q : R) (n : nat) : R * R :=
  match n with
  | O => (1, d)
  | S k => let p := hlp d q k in (snd p, ((2 * INR k + 3) * d * snd p - (INR k + 1) * q * fst p) / (INR k + 2))
  end.
Definition HL (d q : R) (n : nat) : R := fst (hlp d q n).
(* its derivative with respect to d *)
Fixpoint HG (d q : R) (n : nat) : R :=
  match n with O => 0 | S k => d * HG d q k + (INR k + 1) * HL d q k end.

Lemma HL_0 d q : HL d q 0 = 1. Proof. reflexivity. Qed.
Lemma HL_1 d q : HL d q 1 = d. Proof. reflexivity. Qed.
Lemma HL_SS d q n : (INR n + 2) * HL d q (S (S n)) = (2 * INR n + 3) * d * HL d q (S n) - (INR n + 1) * q * HL d q n.
Proof. unfold HL. cbn [hlp fst snd]. assert (H := pos_INR n). field. lra. Qed.
Lemma HG_S d q n : HG d q (S n) = d * HG d q n + (INR n + 1) * HL d q n.
Proof. reflexivity. Qed.
Lemma HG_b d q n : d * HG d q (S n) - q * HG d q n = (INR n + 1) * HL d q (S n).
Proof.
  induction n as [|n IH].
  - cbn [HG]. rewrite HL_0, HL_1. simpl INR. ring.
  - assert (E := HL_SS d q n). assert (S1 := HG_S d q (S n)). assert (S0 := HG_S d q n). rewrite S_INR in *.
    rewrite S1. replace (q * HG d q (S n)) with (d * (q * HG d q n) + (INR n + 1) * q * HL d q n) by (rewrite S0; ring).
    replace (q * HG d q n) with (d * HG d q (S n) - (INR n + 1) * HL d q (S n)) by lra. lra.
Qed.
Lemma HG_SS d q n : HG d q (S (S n)) = q * HG d q n + (2 * INR n + 3) * HL d q (S n).
Proof. rewrite HG_S, S_INR. assert (H := HG_b d q n). lra. Qed.
Lemma nat_ind2 (P : nat -> Prop) : P O -> P 1%nat -> (forall n, P n -> P (S n) -> P (S (S n))) -> forall n, P n.
Proof. intros H0 H1 HS. assert (forall n, P n /\ P (S n)) by (induction n; intuition). apply H. Qed.

Lemma is_derive_eq (f : R -> R) (t a b : R) : is_derive f t a -> a = b -> is_derive f t b.
Proof. now intros H <-. Qed.
(* derivative along any curve *)
Lemma HL_der (d q : R -> R) (t d' q' : R) (n : nat) : is_derive d t d' -> is_derive q t q' ->
  is_derive (fun x => HL (d x) (q x) n) t (HG (d t) (q t) n * d' - / 2 * HG (d t) (q t) (pred n) * q').
Proof.
  intros Hd Hq. revert n. apply nat_ind2.
  - cbn [HG pred]. eapply is_derive_ext; [intros x; symmetry; apply HL_0|].
    apply is_derive_eq with 0; [apply @is_derive_const|ring].
  - cbn [HG pred]. eapply is_derive_ext; [intros x; symmetry; apply HL_1|].
    apply is_derive_eq with d'; [exact Hd|]. rewrite HL_0. simpl. ring.
  - intros n I1 I2. cbn [pred] in *. assert (Hp := pos_INR n).
    apply is_derive_ext with (f := fun x => / (INR n + 2) * ((2 * INR n + 3) * (d x * HL (d x) (q x) (S n)) - (INR n + 1) * (q x * HL (d x) (q x) n))).
    { intros x. assert (E := HL_SS (d x) (q x) n).
      match goal with |- @eq _ ?x ?y => change (@eq R x y) end.
      apply (Rmult_eq_reg_l (INR n + 2)); [|lra]. rewrite E. field. lra. }
    set (A1 := HG (d t) (q t) (S n) * d' - / 2 * HG (d t) (q t) n * q') in *.
    set (A0 := HG (d t) (q t) n * d' - / 2 * HG (d t) (q t) (pred n) * q') in *.
    apply is_derive_eq with (/ (INR n + 2) * ((2 * INR n + 3) * (d' * HL (d t) (q t) (S n) + d t * A1) - (INR n + 1) * (q' * HL (d t) (q t) n + q t * A0))).
    1: { apply (is_derive_scal (fun x => (2 * INR n + 3) * (d x * HL (d x) (q x) (S n)) - (INR n + 1) * (q x * HL (d x) (q x) n))).
      apply @is_derive_minus.
      - apply is_derive_scal. apply (is_derive_mult (fun x => d x) (fun x => HL (d x) (q x) (S n))); [exact Hd|exact I2|intros; apply Rmult_comm].
      - apply is_derive_scal. apply (is_derive_mult (fun x => q x) (fun x => HL (d x) (q x) n)); [exact Hq|exact I1|intros; apply Rmult_comm]. }
    assert (E : (INR n + 1) * q t * HG (d t) (q t) (pred n) = (INR n + 1) * (d t * HG (d t) (q t) n) - (INR n + 1) * (INR n * HL (d t) (q t) n)).
    { destruct n as [|k].
      - cbn [pred HG]. simpl INR. ring.
      - cbn [pred]. assert (H := HG_b (d t) (q t) k). rewrite S_INR. rewrite <- H. ring. }
    assert (B := HG_b (d t) (q t) n). assert (S1 := HG_S (d t) (q t) (S n)). assert (S0 := HG_S (d t) (q t) n).
    rewrite S_INR in S1. unfold A1, A0.
    set (H0 := HL (d t) (q t) n) in *. set (H1 := HL (d t) (q t) (S n)) in *. set (G0 := HG (d t) (q t) n) in *.
    set (G1 := HG (d t) (q t) (S n)) in *. set (G2 := HG (d t) (q t) (S (S n))) in *. set (Gm := HG (d t) (q t) (pred n)) in *.
    set (N := INR n) in *. clearbody H0 H1 G0 G1 G2 Gm N. clear I1 I2 Hd Hq A1 A0. rewrite S1.
    apply (Rmult_eq_reg_l (N + 2)); [|lra]. 
    transitivity ((2 * N + 3) * (d' * H1 + d t * (G1 * d' - / 2 * G0 * q')) - (N + 1) * (q' * H0) - (N + 1) * (q t * G0) * d' + / 2 * ((N + 1) * q t * Gm) * q'); [field; lra|].
    rewrite E. replace (q t * G0) with (d t * G1 - (N + 1) * H1) by lra. rewrite S0. field.
Qed.

(* bounds: P_n^2 + (1-x^2) (P_n'/n)^2 <= 1 in homogeneous form *)
Lemma HL_energy d q n : d * d <= q ->
  HL d q (S n) ^ 2 + (q - d * d) * (HG d q (S n) / (INR n + 1)) ^ 2 <= q ^ S n.
Proof.
  intros Hd. induction n as [|n IH].
  - cbn [HG]. rewrite HL_0, HL_1. simpl INR. simpl pow. apply Req_le. field.
  - assert (Hp := pos_INR n). rewrite S_INR. replace (INR n + 1 + 1) with (INR n + 2) by ring.
    assert (B := HG_b d q (S n)). assert (A := HG_S d q (S n)). rewrite S_INR in A, B. replace (INR n + 1 + 1) with (INR n + 2) in * by ring.
    set (h1 := HL d q (S n)) in *. set (h2 := HL d q (S (S n))) in *. set (g1 := HG d q (S n)) in *. set (g2 := HG d q (S (S n))) in *.
    set (N := INR n) in *. clearbody h1 h2 g1 g2 N.
    (* q * (h1^2 + s^2 (g1/(N+2))^2) = h2^2 + s^2 (g2/(N+2))^2 *)
    assert (E : h2 ^ 2 + (q - d * d) * (g2 / (N + 2)) ^ 2 = q * (h1 ^ 2 + (q - d * d) * (g1 / (N + 2)) ^ 2)).
    { replace h2 with ((d * g2 - q * g1) / (N + 2)) by (rewrite B; field; lra). rewrite A. field. lra. }
    rewrite E. change (q ^ S (S n)) with (q * q ^ S n). apply Rmult_le_compat_l; [nra|].
    refine (Rle_trans _ _ _ _ IH). apply Rplus_le_compat_l. apply Rmult_le_compat_l; [lra|].
    unfold Rdiv. rewrite !Rpow_mult_distr. apply Rmult_le_compat_l; [apply pow2_ge_0|].
    apply pow_incr. split; [apply Rlt_le, Rinv_0_lt_compat; lra|apply Rinv_le_contravar; lra].
Qed.
Lemma HL_bound d k n : 0 <= k -> Rabs d <= k -> Rabs (HL d (k * k) n) <= k ^ n.
Proof.
  intros Hk Hd. destruct n as [|n]; [rewrite HL_0, Rabs_R1; simpl; lra|].
  assert (Hdd : d * d <= k * k) by (apply Rabs_le_between in Hd; nra).
  assert (E := HL_energy d (k * k) n Hdd).
  assert (0 <= (k * k - d * d) * (HG d (k * k) (S n) / (INR n + 1)) ^ 2) by (apply Rmult_le_pos; [lra|apply pow2_ge_0]).
  apply Rsqr_incr_0; [|apply Rabs_pos|apply pow_le; assumption].
  rewrite <- Rsqr_abs. unfold Rsqr. rewrite <- Rpow_mult_distr. lra.
Qed.
Lemma HG_bound d k n : 0 <= k -> Rabs d <= k -> Rabs (HG d (k * k) (S n)) <= (INR n + 1) ^ 2 * k ^ n.
Proof.
  intros Hk Hd. revert n. apply nat_ind2.
  - cbn [HG]. rewrite HL_0. simpl INR. simpl pow. rewrite Rabs_pos_eq; lra.
  - rewrite HG_SS. cbn [HG]. rewrite HL_1. simpl INR. simpl pow. replace (k * k * 0 + (2 * 0 + 3) * d) with (3 * d) by ring.
    rewrite Rabs_mult, (Rabs_pos_eq 3) by lra. nra.
  - intros n I1 _. rewrite HG_SS. eapply Rle_trans; [apply Rabs_triang|]. rewrite !Rabs_mult, (Rabs_pos_eq k) by assumption.
    assert (Hp := pos_INR n). rewrite (Rabs_pos_eq (2 * INR (S n) + 3)) by (rewrite S_INR; lra).
    assert (B := HL_bound d k (S (S n)) Hk Hd). rewrite !S_INR. set (h := Rabs (HL _ _ _)) in *. set (g := Rabs (HG _ _ _)) in *.
    assert (E : k ^ S (S n) = k * k * k ^ n) by (simpl; ring). rewrite E in *.
    assert (Hkn : 0 <= k ^ n) by (apply pow_le; lra). set (K := k ^ n) in *. clearbody K h g.
    assert (0 <= k * k) by nra.
    apply Rle_trans with (k * k * ((INR n + 1) ^ 2 * K) + (2 * (INR n + 1) + 3) * (k * k * K)).
    + apply Rplus_le_compat; apply Rmult_le_compat_l; lra.
    + assert (0 <= k * k * K) by (apply Rmult_le_pos; assumption). nra.
Qed.

(* ---- power series ---- *)
Lemma npow_bound p n : 0 <= p < 1 -> INR (S n) * p ^ n <= / (1 - p).
Proof.
  intros Hp. apply Rle_trans with (sum_f_R0 (fun i => p ^ i) n).
  - clear -Hp. assert (forall j, (j <= n)%nat -> INR (S j) * p ^ n <= sum_f_R0 (fun i => p ^ i) j).
    { assert (Q : forall j, (j <= n)%nat -> p ^ n <= p ^ j).
      { intros j Hj. replace n with (j + (n - j))%nat by lia. rewrite pow_add. rewrite <- (Rmult_1_r (p ^ j)) at 2.
        apply Rmult_le_compat_l; [apply pow_le; lra|]. rewrite <- (pow1 (n - j)). apply pow_incr. lra. }
      induction j as [|j IH]; intros Hj.
      - simpl. specialize (Q O Hj). simpl in Q. lra.
      - cbn [sum_f_R0]. rewrite S_INR. specialize (IH ltac:(lia)). specialize (Q (S j) Hj). lra. }
    now apply H.
  - rewrite tech3 by lra. unfold Rdiv. rewrite <- (Rmult_1_l (/ (1 - p))) at 2. apply Rmult_le_compat_r; [apply Rlt_le, Rinv_0_lt_compat; lra|].
    assert (0 <= p ^ S n) by (apply pow_le; lra). lra.
Qed.
Lemma n2pow_bound q n : 0 <= q < 1 -> (INR n + 1) ^ 2 * q ^ n <= (/ (1 - sqrt q)) ^ 2.
Proof.
  intros Hq. assert (Hs : 0 <= sqrt q < 1). { split; [apply sqrt_pos|]. rewrite <- sqrt_1. apply sqrt_lt_1; lra. }
  assert (B := npow_bound (sqrt q) n Hs). rewrite S_INR in B.
  replace ((INR n + 1) ^ 2 * q ^ n) with (((INR n + 1) * sqrt q ^ n) ^ 2).
  - apply pow_incr. split; [|exact B]. apply Rmult_le_pos; [assert (H := pos_INR n); lra|apply pow_le; lra].
  - rewrite Rpow_mult_distr. f_equal. rewrite <- pow_mult, Nat.mul_comm, pow_mult. f_equal. simpl. rewrite Rmult_1_r. apply sqrt_sqrt; lra.
Qed.
Lemma cv_poly (a : nat -> R) k t : 0 <= k -> (forall n, Rabs (a n) <= (INR n + 1) ^ 2 * k ^ n) -> Rabs t * k < 1 -> Rbar_lt (Rabs t) (CV_radius a).
Proof.
  intros Hk Ha Ht. assert (Ht0 := Rabs_pos t). set (u := Rabs t) in *. clearbody u.
  set (w := u + (1 - u * k) / (2 * (k + 1))).
  assert (Hw : u < w) by (unfold w; assert (0 < (1 - u * k) / (2 * (k + 1))) by (apply Rdiv_lt_0_compat; lra); lra).
  assert (Hwk : w * k < 1).
  { unfold w. assert ((1 - u * k) / (2 * (k + 1)) * k < 1 - u * k); [|lra].
    replace ((1 - u * k) / (2 * (k + 1)) * k) with ((1 - u * k) * (k / (2 * (k + 1)))) by (field; lra).
    assert (k / (2 * (k + 1)) < 1). { apply (Rmult_lt_reg_r (2 * (k + 1))); [lra|]. unfold Rdiv. rewrite Rmult_assoc, Rinv_l by lra. lra. } nra. }
  apply Rbar_lt_le_trans with w; [exact Hw|].
  apply (CV_radius_bounded a). exists ((/ (1 - sqrt (w * k))) ^ 2). intros n. rewrite Rabs_mult, <- RPow_abs, (Rabs_pos_eq w) by lra.
  refine (Rle_trans _ _ _ _ (n2pow_bound (w * k) n _)); [|split; [apply Rmult_le_pos; lra|exact Hwk]].
  rewrite Rpow_mult_distr. replace ((INR n + 1) ^ 2 * (w ^ n * k ^ n)) with ((INR n + 1) ^ 2 * k ^ n * w ^ n) by ring.
  apply Rmult_le_compat_r; [apply pow_le; lra|apply Ha].
Qed.

Section Generating.
Variables (d k : R).
Hypothesis (Hk : 0 <= k) (Hd : Rabs d <= k).
Let a := HL d (k * k).
Let b := fun n => HG d (k * k) (S n).
Lemma cv_a t : Rabs t * k < 1 -> Rbar_lt (Rabs t) (CV_radius a).
Proof.
  apply cv_poly; [exact Hk|]. intros n. eapply Rle_trans; [now apply HL_bound|].
  assert (H := pos_INR n). assert (0 <= k ^ n) by (apply pow_le; lra). nra.
Qed.
Lemma cv_b t : Rabs t * k < 1 -> Rbar_lt (Rabs t) (CV_radius b).
Proof. apply cv_poly; [exact Hk|]. intros n. now apply HG_bound. Qed.
Lemma ex_a t : Rabs t * k < 1 -> ex_pseries a t.
Proof. intros H. apply CV_radius_inside. now apply cv_a. Qed.
Lemma ex_b t : Rabs t * k < 1 -> ex_pseries b t.
Proof. intros H. apply CV_radius_inside. now apply cv_b. Qed.
Lemma ex_incr (c : nat -> R) (t : R) : ex_pseries c t -> ex_pseries (PS_incr_1 c) t.
Proof. apply @ex_pseries_incr_1. Qed.
(* f' = (d - q t) F *)
Lemma gen_1 t : Rabs t * k < 1 -> PSeries (PS_derive a) t = (d - k * k * t) * PSeries b t.
Proof.
  intros Ht. rewrite (PSeries_ext _ (PS_plus (PS_scal d b) (PS_scal (- (k * k)) (PS_incr_1 b)))).
  - rewrite PSeries_plus.
    + rewrite !PSeries_scal, PSeries_incr_1. ring.
    + apply ex_pseries_scal; [apply Rmult_comm|now apply ex_b].
    + apply ex_pseries_scal; [apply Rmult_comm|]. apply ex_incr. now apply ex_b.
  - intros n. unfold PS_plus, PS_scal, PS_derive, PS_incr_1, b, a. unfold plus, scal; cbn -[HG HL INR]. unfold mult; cbn -[HG HL INR].
    assert (B := HG_b d (k * k) n). rewrite S_INR. destruct n as [|n]; [cbn [HG] in *; change (zero : R) with 0; simpl INR in *; lra|]. lra.
Qed.
(* (1 - d t) F = t f' + f *)
Lemma gen_2 t : Rabs t * k < 1 -> PSeries b t = d * t * PSeries b t + (t * PSeries (PS_derive a) t + PSeries a t).
Proof.
  intros Ht. rewrite (PSeries_ext b (PS_plus (PS_scal d (PS_incr_1 b)) (PS_plus (PS_incr_1 (PS_derive a)) a))) at 1.
  - assert (X1 : ex_pseries (PS_incr_1 (PS_derive a)) t).
    { apply ex_incr. apply CV_radius_inside. rewrite CV_radius_derive. now apply cv_a. }
    rewrite !PSeries_plus.
    + rewrite PSeries_scal, !PSeries_incr_1. ring.
    + exact X1.
    + now apply ex_a.
    + apply ex_pseries_scal; [apply Rmult_comm|]. apply ex_incr. now apply ex_b.
    + apply @ex_pseries_plus; [exact X1|now apply ex_a].
  - intros n. unfold PS_plus, PS_scal, PS_derive, PS_incr_1, b, a. unfold plus, scal; cbn -[HG HL INR]. unfold mult; cbn -[HG HL INR].
    rewrite HG_S. destruct n as [|n]; [cbn [HG]; change (zero : R) with 0; simpl INR; lra|]. rewrite !S_INR. lra.
Qed.
Definition disc t := 1 - 2 * d * t + k * k * t * t.
Lemma disc_pos t : Rabs t * k < 1 -> 0 < disc t.
Proof.
  intros Ht. unfold disc. assert (Rabs (d * t) <= k * Rabs t). { rewrite Rabs_mult. apply Rmult_le_compat_r; [apply Rabs_pos|exact Hd]. }
  assert (d * t <= k * Rabs t) by (eapply Rle_trans; [apply Rle_abs|eassumption]).
  assert (t * t = Rabs t * Rabs t) by (rewrite <- Rabs_mult, Rabs_pos_eq; nra).
  replace (k * k * t * t) with (k * k * (t * t)) by ring. rewrite H1. assert (0 < (1 - k * Rabs t) ^ 2) by (apply pow2_gt_0; nra). nra.
Qed.
Lemma gen_F t : Rabs t * k < 1 -> disc t * PSeries b t = PSeries a t.
Proof. intros Ht. assert (E := gen_2 t Ht). rewrite gen_1 in E by assumption. unfold disc. nra. Qed.
Lemma a_0 : PSeries a 0 = 1.
Proof. rewrite PSeries_0. reflexivity. Qed.
Lemma gen_f t : Rabs t * k < 1 -> PSeries a t = / sqrt (disc t).
Proof.
  intros Ht.
  assert (P : forall x, Rmin 0 t <= x <= Rmax 0 t -> Rabs x * k < 1).
  { intros x Hx. apply Rle_lt_trans with (Rabs t * k); [|exact Ht]. apply Rmult_le_compat_r; [exact Hk|].
    revert Hx. unfold Rmin, Rmax, Rabs. repeat destruct Rle_dec; repeat destruct Rcase_abs; intros; lra. }
  assert (D : forall x, Rabs x * k < 1 -> is_derive (fun y => PSeries a y * sqrt (disc y)) x 0).
  { intros x Hx. assert (Dp := disc_pos x Hx).
    assert (D1 : is_derive (PSeries a) x (PSeries (PS_derive a) x)) by (apply is_derive_PSeries; now apply cv_a).
    assert (D2 : is_derive (fun y => sqrt (disc y)) x ((- (2 * d) + 2 * (k * k) * x) / (2 * sqrt (disc x)))).
    { eapply is_derive_eq; [apply (is_derive_comp sqrt disc); [apply is_derive_Reals, derivable_pt_lim_sqrt; exact Dp|]|].
      - unfold disc. instantiate (1 := - (2 * d) + 2 * (k * k) * x). auto_derive; [trivial|]. ring.
      - unfold scal; cbn; unfold mult; cbn. field. apply Rgt_not_eq, sqrt_lt_R0, Dp. }
    eapply is_derive_eq; [apply (is_derive_mult (PSeries a) (fun y => sqrt (disc y))); [exact D1|exact D2|intros; apply Rmult_comm]|].
    unfold plus; cbn; unfold mult; cbn. rewrite gen_1, <- gen_F by assumption. assert (Hs := sqrt_lt_R0 _ Dp).
    assert (E := sqrt_sqrt _ (Rlt_le _ _ Dp)). set (s := sqrt (disc x)) in *. set (F := PSeries b x). rewrite <- E. field. lra. }
  destruct (MVT_gen (fun y => PSeries a y * sqrt (disc y)) 0 t (fun _ => 0)) as (c & Hc & E).
  - intros x Hx. apply D, P. lra.
  - intros x Hx. apply continuity_pt_filterlim. apply (ex_derive_continuous (fun y => PSeries a y * sqrt (disc y))). exists 0. apply D, P. exact Hx.
  - rewrite a_0 in E. unfold disc at 2 in E. replace (1 - 2 * d * 0 + k * k * 0 * 0) with 1 in E by ring. rewrite sqrt_1 in E.
    assert (Hs := sqrt_lt_R0 _ (disc_pos t Ht)). apply (Rmult_eq_reg_r (sqrt (disc t))); [|lra]. rewrite Rinv_l by lra. lra.
Qed.
End Generating.
