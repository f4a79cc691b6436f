(* C72: how many degrees are needed: explicit truncation errors of multipole_force and of the torque. *)
From Coq Require Import Reals Lra Lia ZArith List.
From Coquelicot Require Import Coquelicot.
From Verif Require Import Props_Glib Props_Moments Props_Multipole Props_Torque Addition Legendre TransRecProofs RotationsProofs2 RotSpec TransSpec GlibProofs GlibProofs2 NewtonSpec Newton CDeriv MultipoleLib MultipoleProofs MultipoleProofs2 Props_Newton.
From Verif Require Import Cplx.
Open Scope C_scope.

(* ---- specification: what truncation after degree L may cost ---- *)
(* r: distance of a test point, R0: distance of a source point; masses m, M *)
Definition force_tail (L : nat) (r R0 : R) : R := ((r / R0) ^ L * (INR L + 1 - INR L * (r / R0)) / (R0 - r) ^ 2)%R.
Definition force_error (L : nat) (P S : list pt) : R :=
  lsr (fun p => lsr (fun s => Rabs (BIG_G * pm p * pm s) * force_tail L (vnorm (pp p)) (vnorm (pp s)))%R S) P.
Definition torque_error (L : nat) (P S : list pt) : R :=
  lsr (fun p => lsr (fun s => Rabs (BIG_G * pm p * pm s) * (vnorm (pp p) * force_tail L (vnorm (pp p)) (vnorm (pp s))))%R S) P.

(* ---- one pair ---- *)
Lemma cs3 (a b : vec) : (Rabs (vdot a b) <= vnorm a * vnorm b)%R.
Proof.
  apply Rsqr_incr_0; [|apply Rabs_pos|apply Rmult_le_pos; apply vnorm_ge0].
  rewrite <- Rsqr_abs. unfold Rsqr. replace (vnorm a * vnorm b * (vnorm a * vnorm b))%R with (vsq a * vsq b)%R by (rewrite <- !vnorm_sq; ring).
  destruct a as [[a1 a2] a3], b as [[b1 b2] b3]. unfold vsq, vdot.
  assert (0 <= (a1 * b2 - a2 * b1) ^ 2 + (a1 * b3 - a3 * b1) ^ 2 + (a2 * b3 - a3 * b2) ^ 2)%R by (assert (U := fun x : R => pow2_ge_0 x); assert (U1 := U (a1 * b2 - a2 * b1)%R); assert (U2 := U (a1 * b3 - a3 * b1)%R); assert (U3 := U (a2 * b3 - a3 * b2)%R); lra).
  apply Rminus_le. match goal with |- (?x <= 0)%R => replace x with (- ((a1 * b2 - a2 * b1) ^ 2 + (a1 * b3 - a3 * b1) ^ 2 + (a2 * b3 - a3 * b2) ^ 2))%R by ring end. lra.
Qed.
(* the gradient of r^n P_n has length at most n r^(n-1) *)
Lemma HG_gradient d q n : (d * d <= q)%R ->
  (HG d q (S n) ^ 2 - 2 * d * HG d q (S n) * HG d q n + q * HG d q n ^ 2 <= (INR n + 1) ^ 2 * q ^ n)%R.
Proof.
  intros H.
  replace (HG d q (S n) ^ 2 - 2 * d * HG d q (S n) * HG d q n + q * HG d q n ^ 2)%R
    with ((HG d q (S n) - d * HG d q n) ^ 2 + (q - d * d) * HG d q n ^ 2)%R by ring.
  rewrite HG_S. replace (d * HG d q n + (INR n + 1) * HL d q n - d * HG d q n)%R with ((INR n + 1) * HL d q n)%R by ring.
  destruct n as [|n].
  - cbn [HG]. rewrite HL_0. simpl. lra.
  - assert (E := HL_energy d q n H). assert (Hn := pos_INR n). rewrite S_INR.
    set (h := HL d q (S n)) in *. set (g := HG d q (S n)) in *. set (N := INR n) in *. set (X := (q ^ S n)%R) in *. clearbody h g N X.
    replace ((q - d * d) * (g / (N + 1)) ^ 2)%R with ((q - d * d) * g ^ 2 * / (N + 1) ^ 2)%R in E by (field; lra).
    set (y := ((q - d * d) * g ^ 2)%R) in *. assert (Hy : (0 <= y)%R) by (apply Rmult_le_pos; [lra|apply pow2_ge_0]). clearbody y.
    assert (K : (y <= (N + 1 + 1) ^ 2 * (y * / (N + 1) ^ 2))%R).
    { assert (0 < (N + 1) ^ 2)%R by (apply pow_lt; lra). apply (Rmult_le_reg_r ((N + 1) ^ 2)); [assumption|].
      replace ((N + 1 + 1) ^ 2 * (y * / (N + 1) ^ 2) * (N + 1) ^ 2)%R with (y * (N + 1 + 1) ^ 2)%R by (field; lra).
      apply Rmult_le_compat_l; [assumption|]. apply pow_incr. lra. }
    replace (((N + 1 + 1) * h) ^ 2)%R with ((N + 1 + 1) ^ 2 * h ^ 2)%R by ring.
    apply Rle_trans with ((N + 1 + 1) ^ 2 * (h ^ 2 + y * / (N + 1) ^ 2))%R; [lra|].
    apply Rmult_le_compat_l; [apply pow2_ge_0|exact E].
Qed.
Lemma dterm_bound v V w n : (vnorm v < vnorm V)%R ->
  (Rabs (dterm v V w (S n)) <= vnorm w * (INR n + 1) * (vnorm v / vnorm V) ^ n * / vnorm V)%R.
Proof.
  intros H. assert (H0 := vnorm_ge0 v). assert (HV := vsq_pos V (HV0 v V H)).
  set (g := vsub (vscal (HG (vdot v V) (vsq v * vsq V) (S n)) V) (vscal (HG (vdot v V) (vsq v * vsq V) n * vsq V) v)).
  assert (E : dterm v V w (S n) = (vdot w g * (/ vsq V) ^ S n)%R).
  { unfold dterm, g. cbn [pred]. f_equal. generalize (HG (vdot v V) (vsq v * vsq V) (S n)) (HG (vdot v V) (vsq v * vsq V) n) (vsq V). intros a b c.
    destruct v as [[? ?] ?], V as [[? ?] ?], w as [[? ?] ?]. unfold vdot, vsub, vscal. field. }
  assert (Hd : (vdot v V * vdot v V <= vsq v * vsq V)%R).
  { assert (K := cs3 v V). rewrite <- (vnorm_sq v), <- (vnorm_sq V). apply Rabs_le_between in K. set (a := (vnorm v * vnorm V)%R) in *.
    replace (vnorm v * vnorm v * (vnorm V * vnorm V))%R with (a * a)%R by (unfold a; ring). nra. }
  assert (G := HG_gradient (vdot v V) (vsq v * vsq V) n Hd).
  assert (Eg : (vsq g = vsq V * (HG (vdot v V) (vsq v * vsq V) (S n) ^ 2 - 2 * vdot v V * HG (vdot v V) (vsq v * vsq V) (S n) * HG (vdot v V) (vsq v * vsq V) n + (vsq v * vsq V) * HG (vdot v V) (vsq v * vsq V) n ^ 2))%R).
  { unfold g. generalize (HG (vdot v V) (vsq v * vsq V) (S n)) (HG (vdot v V) (vsq v * vsq V) n). intros a b.
    destruct v as [[? ?] ?], V as [[? ?] ?]. unfold vsq, vdot, vsub, vscal. ring. }
  assert (Bg : (vnorm g <= (INR n + 1) * (vnorm v * vnorm V) ^ n * vnorm V)%R).
  { apply Rsqr_incr_0; [|apply vnorm_ge0|].
    - unfold Rsqr. rewrite vnorm_sq, Eg.
      replace ((INR n + 1) * (vnorm v * vnorm V) ^ n * vnorm V * ((INR n + 1) * (vnorm v * vnorm V) ^ n * vnorm V))%R
        with (vsq V * ((INR n + 1) ^ 2 * (vsq v * vsq V) ^ n))%R.
      + apply Rmult_le_compat_l; [lra|exact G].
      + rewrite <- !vnorm_sq. replace (vnorm v * vnorm v * (vnorm V * vnorm V))%R with ((vnorm v * vnorm V) * (vnorm v * vnorm V))%R by ring.
        rewrite Rpow_mult_distr. ring.
    - assert (Hn := pos_INR n). apply Rmult_le_pos; [apply Rmult_le_pos; [lra|apply pow_le, Rmult_le_pos; lra]|lra]. }
  rewrite E, Rabs_mult, (Rabs_pos_eq (_ ^ _)) by (apply pow_le, Rlt_le, Rinv_0_lt_compat, HV).
  apply Rle_trans with (vnorm w * ((INR n + 1) * (vnorm v * vnorm V) ^ n * vnorm V) * (/ vsq V) ^ S n)%R.
  - apply Rmult_le_compat_r; [apply pow_le, Rlt_le, Rinv_0_lt_compat, HV|]. eapply Rle_trans; [apply cs3|].
    apply Rmult_le_compat_l; [apply vnorm_ge0|exact Bg].
  - apply Req_le. unfold Rdiv. rewrite (Rpow_mult_distr (vnorm v) (/ vnorm V)). change ((/ vsq V) ^ S n)%R with (/ vsq V * (/ vsq V) ^ n)%R.
    replace ((vnorm v * vnorm V) ^ n)%R with (vnorm v ^ n * vnorm V ^ n)%R by (now rewrite Rpow_mult_distr).
    replace ((/ vnorm V) ^ n)%R with (vnorm V ^ n * (/ vsq V) ^ n)%R by (rewrite <- Rpow_mult_distr; f_equal; rewrite <- vnorm_sq; field; lra).
    set (X := ((/ vsq V) ^ n)%R). clearbody X. rewrite <- (vnorm_sq V). field. lra.
Qed.
Lemma sum_tail1 (a : nat -> R) K q N j : (0 <= q < 1)%R -> (0 <= K)%R -> (forall n, Rabs (a (S n)) <= K * (INR n + 1) * q ^ n)%R ->
  (Rabs (sum_n a (N + j) - sum_n a N) <= K * (q ^ N * (INR N + 1 - INR N * q) - q ^ (N + j) * (INR (N + j) + 1 - INR (N + j) * q)) / (1 - q) ^ 2)%R.
Proof.
  intros Hq HK Ha. induction j as [|j IH].
  - rewrite Nat.add_0_r. replace (sum_n a N - sum_n a N)%R with 0%R by ring. rewrite Rabs_R0. apply Req_le. field. lra.
  - replace (N + Datatypes.S j)%nat with (Datatypes.S (N + j)) by lia. rewrite sum_Sn. unfold plus; cbn -[sum_n pow INR].
    replace (sum_n a (N + j) + a (Datatypes.S (N + j)) - sum_n a N)%R with ((sum_n a (N + j) - sum_n a N) + a (Datatypes.S (N + j)))%R by ring.
    eapply Rle_trans; [apply Rabs_triang|]. eapply Rle_trans; [apply Rplus_le_compat; [exact IH|apply Ha]|]. apply Req_le.
    rewrite (S_INR (N + j)). change (q ^ S (N + j))%R with (q * q ^ (N + j))%R. field. lra.
Qed.
Lemma tail_nonneg q N : (0 <= q < 1)%R -> (0 <= q ^ N * (INR N + 1 - INR N * q))%R.
Proof. intros H. assert (K := pos_INR N). apply Rmult_le_pos; [apply pow_le; lra|]. nra. Qed.
Lemma pair_force_rate v V w N : (vnorm v < vnorm V)%R ->
  (Rabs (sum_n (dterm v V w) N / vnorm V - vdot w (vsub V v) / vnorm (vsub V v) ^ 3) <= vnorm w * force_tail N (vnorm v) (vnorm V))%R.
Proof.
  intros H. assert (H0 := vnorm_ge0 v). set (q := (vnorm v / vnorm V)%R).
  assert (Hq : (0 <= q < 1)%R). { unfold q. split; [apply Rmult_le_pos; [exact H0|apply Rlt_le, Rinv_0_lt_compat; lra]|]. apply (Rmult_lt_reg_r (vnorm V)); [lra|]. unfold Rdiv. rewrite Rmult_assoc, Rinv_l by lra. lra. }
  assert (L := lim_der v V H w). apply (is_lim_seq_incr_n _ N) in L.
  assert (L2 : is_lim_seq (fun j => Rabs (sum_n (dterm v V w) N / vnorm V - sum_n (dterm v V w) (j + N) / vnorm V)) (Rabs (sum_n (dterm v V w) N / vnorm V - vdot w (vsub V v) / vnorm (vsub V v) ^ 3))).
  { apply (is_lim_seq_abs _ (sum_n (dterm v V w) N / vnorm V - vdot w (vsub V v) / vnorm (vsub V v) ^ 3)%R). apply (is_lim_seq_minus' _ _ (sum_n (dterm v V w) N / vnorm V)%R); [apply is_lim_seq_const|exact L]. }
  refine (is_lim_seq_le _ _ _ _ _ L2 (is_lim_seq_const _)). intros j. cbv beta.
  replace (sum_n (dterm v V w) N / vnorm V - sum_n (dterm v V w) (j + N) / vnorm V)%R with (- (sum_n (dterm v V w) (N + j) - sum_n (dterm v V w) N) * / vnorm V)%R.
  2:{ rewrite (Nat.add_comm j N). unfold Rdiv. match goal with |- @eq _ ?x ?y => change (@eq R x y) end. ring. }
  rewrite Rabs_mult, Rabs_Ropp.
  assert (HK : (0 <= vnorm w * / vnorm V)%R) by (apply Rmult_le_pos; [apply vnorm_ge0|apply Rlt_le, Rinv_0_lt_compat; lra]).
  assert (T := sum_tail1 (dterm v V w) (vnorm w * / vnorm V) q N j Hq HK).
  assert (HT : forall n, (Rabs (dterm v V w (Datatypes.S n)) <= vnorm w * / vnorm V * (INR n + 1) * q ^ n)%R).
  { intros n. eapply Rle_trans; [apply (dterm_bound v V w n H)|]. apply Req_le. unfold q. ring. }
  specialize (T HT). rewrite (Rabs_pos_eq (/ vnorm V)) by (apply Rlt_le, Rinv_0_lt_compat; lra).
  assert (T1 := tail_nonneg q (N + j) Hq).
  apply Rle_trans with (vnorm w * / vnorm V * (q ^ N * (INR N + 1 - INR N * q)) / (1 - q) ^ 2 * / vnorm V)%R.
  - apply Rmult_le_compat_r; [apply Rlt_le, Rinv_0_lt_compat; lra|]. eapply Rle_trans; [exact T|]. unfold Rdiv. apply Rmult_le_compat_r.
    + apply Rlt_le, Rinv_0_lt_compat, pow_lt. lra.
    + apply Rmult_le_compat_l; [exact HK|]. lra.
  - apply Req_le. unfold force_tail. fold q. set (Q := (q ^ N)%R). unfold q at 2. unfold q. field. repeat split; lra.
Qed.

(* ---- sums over the points ---- *)
Lemma dsum_rate c P S g w L : inside (carried g P) S ->
  (Rabs (dsum c L P S g w - lsr (fun p => lsr (fun s => c * pm p * pm s * (vdot (w (pp p)) (vsub (pp s) (g (pp p))) / vnorm (vsub (pp s) (g (pp p))) ^ 3)) S) P)
   <= lsr (fun p => lsr (fun s => Rabs (c * pm p * pm s) * (vnorm (w (pp p)) * force_tail L (vnorm (g (pp p))) (vnorm (pp s)))) S) P)%R.
Proof.
  intros H. unfold dsum. rewrite lsr_minus. apply lsr_le. intros p Hp. rewrite lsr_minus. apply lsr_le. intros s Hs.
  rewrite <- Rmult_minus_distr_l, Rabs_mult. apply Rmult_le_compat_l; [apply Rabs_pos|]. apply pair_force_rate.
  apply (proj2 H (mkpt (pm p) (g (pp p))) s); [|exact Hs]. unfold carried. now apply (in_map (fun p => mkpt (pm p) (g (pp p)))).
Qed.
Lemma lsr_plus {A} (f g : A -> R) l : lsr (fun x => f x + g x)%R l = (lsr f l + lsr g l)%R.
Proof. unfold lsr. induction l as [|x l IH]; cbn; [ring|]. rewrite IH. ring. Qed.
Lemma dterm_lin v V (e1 e2 e3 : R) n : dterm v V (e1, e2, e3) n = (e1 * dterm v V (1, 0, 0) n + e2 * dterm v V (0, 1, 0) n + e3 * dterm v V (0, 0, 1) n)%R.
Proof. unfold dterm. generalize (HG (vdot v V) (vsq v * vsq V) n) (HG (vdot v V) (vsq v * vsq V) (pred n)) (vsq V) ((/ vsq V) ^ n)%R. intros. destruct v as [[? ?] ?], V as [[? ?] ?]. unfold vdot. field. Qed.
Lemma sum_lin v V (e1 e2 e3 : R) N : sum_n (dterm v V (e1, e2, e3)) N
  = (e1 * sum_n (dterm v V (1, 0, 0)) N + e2 * sum_n (dterm v V (0, 1, 0)) N + e3 * sum_n (dterm v V (0, 0, 1)) N)%R.
Proof.
  induction N as [|N IH]; [rewrite !sum_O; apply dterm_lin|]. rewrite !sum_Sn. unfold plus; cbn -[sum_n dterm]. rewrite IH, dterm_lin. ring.
Qed.
Lemma dsum_lin c L P S g (e1 e2 e3 : R) : dsum c L P S g (fun _ => (e1, e2, e3))
  = (e1 * dsum c L P S g (fun _ => (1, 0, 0)) + e2 * dsum c L P S g (fun _ => (0, 1, 0)) + e3 * dsum c L P S g (fun _ => (0, 0, 1)))%R.
Proof.
  unfold dsum. rewrite <- !lsr_scal, <- !lsr_plus. apply lsr_ext. intros p _. rewrite <- !lsr_scal, <- !lsr_plus. apply lsr_ext. intros s _.
  rewrite sum_lin. unfold Rdiv. ring.
Qed.
Lemma force_dsum P S x y z (L : nat) : (1 <= L)%nat -> inside (map (moved (x, y, z)%R) P) S -> ~ origin_before_other P ->
  exists q, qmoments (Z.of_nat L) P = Ok q /\
    multipole_force (Z.of_nat L) q (Qmomentsb (Z.of_nat L) S) x y z BIG_G =
    Ok (RtoC (dsum BIG_G L P S (fun u => vadd u (x, y, z)%R) (fun _ => (1, 0, 0)%R)), RtoC (dsum BIG_G L P S (fun u => vadd u (x, y, z)%R) (fun _ => (0, 1, 0)%R)),
        RtoC (dsum BIG_G L P S (fun u => vadd u (x, y, z)%R) (fun _ => (0, 0, 1)%R))).
Proof.
  intros HL H Ho. set (v := (x, y, z)%R : vec). set (g := fun u : vec => vadd u v).
  destruct (C08_qmoments (Z.of_nat L) P ltac:(lia) Ho) as (q & Eq & Dq & Hq). exists q. split; [exact Eq|].
    destruct (C10_Qmomentsb (Z.of_nat L) S ltac:(lia) (inside_origin _ _ H)) as [DQ HQ].
    destruct (C30_force_on_a_body q (Qmomentsb (Z.of_nat L) S) P x y z BIG_G ltac:(lia) ltac:(lia) Hq ltac:(lia)) as (fx & fy & fz & E & G1 & G2 & G3).
    rewrite Dq in *. rewrite E. f_equal.
    assert (W : forall u, work BIG_G (Z.of_nat L) (inner_moment (map (moved u) P)) (mom (Qmomentsb (Z.of_nat L) S)) = work BIG_G (Z.of_nat L) (inner_moment (map (moved u) P)) (outer_moment S)).
    { intros u. unfold work. f_equal. apply pairing_ext; [reflexivity|]. intros l m Hl Hm. apply HQ; lia. }
    assert (K : forall (gt : R -> vec -> vec) (x0 : R) e d, (forall u, gt x0 u = g u) -> (forall t u, gt t u = vadd (gt 0%R u) (vscal t e)) ->
      cder (fun t => work BIG_G (Z.of_nat L) (inner_moment (carried (gt t) P)) (outer_moment S)) x0 d -> d = RtoC (dsum BIG_G L P S g (fun _ => e))).
    { intros gt x0 e d Eg Hl D. apply cder_work with (w := fun _ => e) in D.
      - rewrite D. f_equal. unfold dsum. apply lsr_ext. intros p _. now rewrite Eg.
      - rewrite (carried_ext (gt x0) g) by exact Eg. exact H.
      - now apply lin_moves. }
    f_equal; [f_equal|].
    + apply (K (fun t u => vadd u (t, y, z)%R) x (1, 0, 0)%R); [reflexivity| |].
      * intros t [[a b] c]. unfold vadd, vscal. apply v3; ring.
      * eapply cder_ext; [|exact G1]. intros t. cbv beta. now rewrite W.
    + apply (K (fun t u => vadd u (x, t, z)%R) y (0, 1, 0)%R); [reflexivity| |].
      * intros t [[a b] c]. unfold vadd, vscal. apply v3; ring.
      * eapply cder_ext; [|exact G2]. intros t. cbv beta. now rewrite W.
    + apply (K (fun t u => vadd u (x, y, t)%R) z (0, 0, 1)%R); [reflexivity| |].
      * intros t [[a b] c]. unfold vadd, vscal. apply v3; ring.
      * eapply cder_ext; [|exact G3]. intros t. cbv beta. now rewrite W.
Qed.
(* a vector that is small in every direction is small *)
Lemma vnorm_le_dirs (a : vec) B : (0 <= B)%R -> (Rabs (vdot a a) <= vnorm a * B)%R -> (vnorm a <= B)%R.
Proof.
  intros HB H. fold (vsq a) in H. rewrite <- vnorm_sq, Rabs_pos_eq in H by (assert (K := vnorm_ge0 a); nra).
  assert (K := vnorm_ge0 a). destruct (Rle_lt_or_eq_dec 0 (vnorm a) K) as [K1|K1]; [|lra].
  apply (Rmult_le_reg_l (vnorm a)); assumption.
Qed.
Lemma force_tail_nonneg L r R0 : (0 <= r < R0)%R -> (0 <= force_tail L r R0)%R.
Proof.
  intros H. unfold force_tail. apply Rmult_le_pos; [|apply Rlt_le, Rinv_0_lt_compat, pow_lt; lra].
  apply tail_nonneg. split; [apply Rmult_le_pos; [lra|apply Rlt_le, Rinv_0_lt_compat; lra]|].
  apply (Rmult_lt_reg_r R0); [lra|]. unfold Rdiv. rewrite Rmult_assoc, Rinv_l by lra. lra.
Qed.
Lemma lsr_nonneg {A} (f : A -> R) l : (forall x, In x l -> (0 <= f x)%R) -> (0 <= lsr f l)%R.
Proof. intros H. unfold lsr. induction l as [|x l IH]; cbn; [lra|]. apply Rplus_le_le_0_compat; [apply H; now left|apply IH; intros; apply H; now right]. Qed.

(* the vector multipole_force returns, compared with what point_matrix_gravity gives for the shifted points *)
Theorem C72_force : forall P S x y z (L : nat), (1 <= L)%nat -> inside (map (moved (x, y, z)%R) P) S -> ~ origin_before_other P ->
  exists q fx fy fz Fx Fy Fz T, qmoments (Z.of_nat L) P = Ok q /\
    multipole_force (Z.of_nat L) q (Qmomentsb (Z.of_nat L) S) x y z BIG_G = Ok (RtoC fx, RtoC fy, RtoC fz) /\
    point_matrix_gravity (translate_point_array (Rows P) (x, y, z)%R) (Rows S) = Ok ((Fx, Fy, Fz), T) /\
    (vnorm (fx - Fx, fy - Fy, fz - Fz) <= force_error L (map (moved (x, y, z)) P) S)%R.
Proof.
  intros P S x y z L HL H Ho. destruct (force_dsum P S x y z L HL H Ho) as (q & Eq & Ef). set (g := fun u : vec => vadd u (x, y, z)%R) in *.
  destruct (totF wG (map (moved (x, y, z)%R) P) S) as [[Fx Fy] Fz] eqn:EF.
  exists q. do 3 eexists. exists Fx, Fy, Fz, (totT wG (map (moved (x, y, z)%R) P) S). split; [exact Eq|]. split; [exact Ef|].
  split; [rewrite <- EF; now apply gravity_inside|].
  set (a := (_, _, _)). assert (Ha : forall e, vdot e a = (dsum BIG_G L P S g (fun _ => e) - vdot e (Fx, Fy, Fz))%R).
  { intros [[e1 e2] e3]. rewrite dsum_lin. unfold a, vdot. ring. }
  assert (B : forall e, (Rabs (vdot e a) <= vnorm e * force_error L (map (moved (x, y, z)) P) S)%R).
  { intros e. rewrite Ha, <- EF. rewrite moved_at. change (fun v => vadd v (x, y, z)%R) with g. rewrite totF_at, vdot_vS, <- (power_pf (fun _ => e) g P S).
    eapply Rle_trans; [apply (dsum_rate BIG_G P S g (fun _ => e) L H)|]. apply Req_le. unfold force_error, carried. rewrite lsr_map, <- lsr_scal.
    apply lsr_ext. intros p _. cbn [pm pp]. rewrite <- lsr_scal. apply lsr_ext. intros s _. ring. }
  apply vnorm_le_dirs; [|apply B]. apply lsr_nonneg. intros p Hp. apply lsr_nonneg. intros s Hs.
  apply Rmult_le_pos; [apply Rabs_pos|]. apply force_tail_nonneg. split; [apply vnorm_ge0|]. now apply (proj2 H).
Qed.
Print Assumptions C72_force.

(* the same for the torque about z on the turned inner body, and with the outer body turned instead *)
Lemma turn_speed phi (v : vec) : (vnorm (let '(a, b, _) := v in (- sin phi * a - cos phi * b, cos phi * a - sin phi * b, 0)) <= vnorm v)%R.
Proof.
  destruct v as [[a b] c]. apply Rsqr_incr_0; [|apply vnorm_ge0|apply vnorm_ge0]. unfold Rsqr. rewrite !vnorm_sq. unfold vsq, vdot.
  assert (E := sin2_cos2 phi). unfold Rsqr in E.
  replace ((- sin phi * a - cos phi * b) * (- sin phi * a - cos phi * b) + (cos phi * a - sin phi * b) * (cos phi * a - sin phi * b) + 0 * 0)%R
    with ((sin phi * sin phi + cos phi * cos phi) * (a * a + b * b))%R by ring. rewrite E. nra.
Qed.
Lemma lsr_mono {A} (f g : A -> R) l : (forall x, In x l -> (f x <= g x)%R) -> (lsr f l <= lsr g l)%R.
Proof. intros H. unfold lsr. induction l as [|x l IH]; cbn; [lra|]. apply Rplus_le_compat; [apply H; now left|apply IH; intros; apply H; now right]. Qed.
Lemma dsum_turn_rate P S phi L : inside P S ->
  (Rabs (dsum BIG_G L P S (zrot phi) (fun v => let '(a, b, _) := v in (- sin phi * a - cos phi * b, cos phi * a - sin phi * b, 0)) - zcomp (totT wG (turned phi P) S))
   <= torque_error L P S)%R.
Proof.
  intros H. rewrite <- turn_power.
  rewrite <- (power_pf (fun v => let '(a, b, _) := v in (- sin phi * a - cos phi * b, cos phi * a - sin phi * b, 0)%R)).
  eapply Rle_trans; [apply dsum_rate; now apply (inside_turned phi)|]. unfold torque_error. apply lsr_mono. intros p Hp. apply lsr_mono. intros s Hs.
  rewrite vnorm_zrot. apply Rmult_le_compat_l; [apply Rabs_pos|]. apply Rmult_le_compat_r; [|apply turn_speed].
  apply force_tail_nonneg. split; [apply vnorm_ge0|]. now apply (proj2 H).
Qed.
Theorem C72_torque : forall P S phi (L : nat), inside P S -> ~ origin_before_other P ->
  exists q nlm nc ns t P' F T, qmoments (Z.of_nat L) P = Ok q /\ torque_lm q (Qmomentsb (Z.of_nat L) S) BIG_G = Ok (nlm, nc, ns) /\
    torques_at_angle nc ns phi false = Ok t /\
    rotate_point_array (Rows P) phi (0, 0, 1)%R = Ok P' /\ point_matrix_gravity P' (Rows S) = Ok (F, T) /\
    (Rabs (t - zcomp T) <= torque_error L P S)%R.
Proof.
  intros P S phi L H Ho. destruct (C08_qmoments (Z.of_nat L) P ltac:(lia) Ho) as (q & Eq & Dq & Hq).
  destruct (C10_Qmomentsb (Z.of_nat L) S ltac:(lia) (inside_origin _ _ H)) as [DQ HQ].
  destruct (torque_lm_ok q (Qmomentsb (Z.of_nat L) S) BIG_G ltac:(lia) ltac:(lia)) as (nlm & nc & ns & E & _).
  destruct (C31_torque_on_a_turning_body q (Qmomentsb (Z.of_nat L) S) P S BIG_G nlm nc ns phi ltac:(lia) ltac:(lia) Hq HQ E) as [(t & Et & Dt) _].
  exists q, nlm, nc, ns, t, (Rows (turned phi P)), (totF wG (turned phi P) S), (totT wG (turned phi P) S).
  split; [exact Eq|]. split; [exact E|]. split; [exact Et|]. split; [apply rotate_turned|]. split; [apply gravity_inside; now apply inside_turned|].
  rewrite Dq in Dt. apply (cder_work BIG_G L P S zrot phi _ (RtoC t) (inside_turned phi P S H) (zrot_moves phi)) in Dt. apply RtoC_inj in Dt. rewrite Dt.
  now apply dsum_turn_rate.
Qed.
Lemma torque_error_turned phi L P S : torque_error L P (turned phi S) = torque_error L P S.
Proof. unfold torque_error, turned. apply lsr_ext. intros p _. rewrite lsr_map. apply lsr_ext. intros s _. cbn [pm pp]. now rewrite vnorm_zrot. Qed.
Theorem C72_torque_outer : forall P S phi (L : nat), inside P S -> ~ origin_before_other P ->
  exists q nlm nc ns t S' F T, qmoments (Z.of_nat L) P = Ok q /\ torque_lm q (Qmomentsb (Z.of_nat L) S) BIG_G = Ok (nlm, nc, ns) /\
    torques_at_angle nc ns phi true = Ok t /\
    rotate_point_array (Rows S) phi (0, 0, 1)%R = Ok S' /\ point_matrix_gravity (Rows P) S' = Ok (F, T) /\
    (Rabs (t - zcomp T) <= torque_error L P S)%R.
Proof.
  intros P S phi L H Ho. assert (H' := inside_turned_r phi P S H). destruct (C08_qmoments (Z.of_nat L) P ltac:(lia) Ho) as (q & Eq & Dq & Hq).
  destruct (C10_Qmomentsb (Z.of_nat L) S ltac:(lia) (inside_origin _ _ H)) as [DQ HQ].
  destruct (torque_lm_ok q (Qmomentsb (Z.of_nat L) S) BIG_G ltac:(lia) ltac:(lia)) as (nlm & nc & ns & E & _).
  destruct (C31_torque_on_a_turning_body q (Qmomentsb (Z.of_nat L) S) P S BIG_G nlm nc ns phi ltac:(lia) ltac:(lia) Hq HQ E) as [_ (t & Et & Dt)].
  exists q, nlm, nc, ns, t, (Rows (turned phi S)), (totF wG P (turned phi S)), (totT wG P (turned phi S)).
  split; [exact Eq|]. split; [exact E|]. split; [exact Et|]. split; [apply rotate_turned|]. split; [now apply gravity_inside|].
  rewrite Dq in Dt. apply (cder_work BIG_G L P (turned phi S) zrot 0 _ (RtoC t) (inside_turned 0 P _ H') (zrot_moves 0)) in Dt. apply RtoC_inj in Dt. rewrite Dt.
  replace (totT wG P (turned phi S)) with (totT wG (turned 0 P) (turned phi S)).
  - rewrite <- (torque_error_turned phi). now apply dsum_turn_rate.
  - f_equal. unfold turned. rewrite <- (map_id P) at 2. apply map_ext. intros [m [[x y] z]]. cbn [pm pp]. unfold zrot. rewrite cos_0, sin_0. f_equal. apply v3; ring.
Qed.
Print Assumptions C72_torque.
Print Assumptions C72_torque_outer.

(* all test points within a of the origin, all sources at least b > a away *)
Lemma force_tail_alt L r R0 : (0 <= r < R0)%R -> force_tail L r R0 = ((r / R0) ^ L * (INR L * / (1 - r / R0) + / (1 - r / R0) ^ 2) * / R0 ^ 2)%R.
Proof.
  intros H. unfold force_tail. set (X := ((r / R0) ^ L)%R). set (n := INR L). clearbody X n. field. repeat split; lra.
Qed.
Lemma ratio_lt r R0 : (0 <= r < R0)%R -> (0 <= r / R0 < 1)%R.
Proof.
  intros H. split; [apply Rmult_le_pos; [lra|apply Rlt_le, Rinv_0_lt_compat; lra]|].
  apply (Rmult_lt_reg_r R0); [lra|]. unfold Rdiv. rewrite Rmult_assoc, Rinv_l by lra. lra.
Qed.
Lemma force_tail_mono L r R0 a b : (0 <= r <= a)%R -> (a < b)%R -> (b <= R0)%R -> (force_tail L r R0 <= force_tail L a b)%R.
Proof.
  intros Hr Hab HR. rewrite !force_tail_alt by lra.
  assert (Q1 := ratio_lt r R0 ltac:(lra)). assert (Q2 := ratio_lt a b ltac:(lra)).
  assert (Q : (r / R0 <= a / b)%R).
  { unfold Rdiv. apply Rmult_le_compat; [lra|apply Rlt_le, Rinv_0_lt_compat; lra|lra|apply Rinv_le_contravar; lra]. }
  set (q1 := (r / R0)%R) in *. set (q2 := (a / b)%R) in *. clearbody q1 q2. assert (HN := pos_INR L).
  assert (I : (/ (1 - q1) <= / (1 - q2))%R) by (apply Rinv_le_contravar; lra).
  assert (I0 : (0 < / (1 - q1))%R) by (apply Rinv_0_lt_compat; lra).
  assert (I2 : (/ (1 - q1) ^ 2 <= / (1 - q2) ^ 2)%R) by (apply Rinv_le_contravar; [apply pow_lt; lra|apply pow_incr; lra]).
  assert (I20 : (0 < / (1 - q1) ^ 2)%R) by (apply Rinv_0_lt_compat, pow_lt; lra).
  assert (J : (q1 ^ L <= q2 ^ L)%R) by (apply pow_incr; lra). assert (J0 : (0 <= q1 ^ L)%R) by (apply pow_le; lra).
  assert (K : (/ R0 ^ 2 <= / b ^ 2)%R) by (apply Rinv_le_contravar; [apply pow_lt; lra|apply pow_incr; lra]).
  assert (K0 : (0 < / R0 ^ 2)%R) by (apply Rinv_0_lt_compat, pow_lt; lra).
  assert (N1 : (INR L * / (1 - q1) <= INR L * / (1 - q2))%R) by (apply Rmult_le_compat_l; lra).
  assert (N0 : (0 <= INR L * / (1 - q1))%R) by (apply Rmult_le_pos; lra).
  apply Rmult_le_compat; [apply Rmult_le_pos; lra|lra| |exact K]. apply Rmult_le_compat; lra.
Qed.
Definition sum_abs_mass (P : list pt) : R := lsr (fun p => Rabs (pm p)) P.
Theorem C72_in_balls : forall P S (a b : R) (L : nat), (0 <= a < b)%R ->
  (forall p, In p P -> (vnorm (pp p) <= a)%R) -> (forall s, In s S -> (b <= vnorm (pp s))%R) ->
  inside P S /\
  (force_error L P S <= BIG_G * sum_abs_mass P * sum_abs_mass S * ((a / b) ^ L * (INR L + 1 - INR L * (a / b)) / (b - a) ^ 2))%R /\
  (torque_error L P S <= BIG_G * sum_abs_mass P * sum_abs_mass S * (a * ((a / b) ^ L * (INR L + 1 - INR L * (a / b)) / (b - a) ^ 2)))%R.
Proof.
  intros P S a b L Hab HP HS. assert (HG : (0 <= BIG_G)%R) by (unfold BIG_G; lra).
  assert (G : forall X (f : pt -> pt -> R), (0 <= X)%R -> (forall p s, In p P -> In s S -> (f p s <= X)%R) ->
    (lsr (fun p => lsr (fun s => Rabs (BIG_G * pm p * pm s) * f p s) S) P <= BIG_G * sum_abs_mass P * sum_abs_mass S * X)%R).
  { intros X f HX Hf. unfold sum_abs_mass.
    replace (BIG_G * lsr (fun p => Rabs (pm p)) P * lsr (fun p => Rabs (pm p)) S * X)%R
      with (lsr (fun p => lsr (fun s => Rabs (BIG_G * pm p * pm s) * X) S) P)%R.
    - apply lsr_mono. intros p Hp. apply lsr_mono. intros s Hs. apply Rmult_le_compat_l; [apply Rabs_pos|]. now apply Hf.
    - transitivity (BIG_G * (lsr (fun p => Rabs (pm p)) S * X) * lsr (fun p => Rabs (pm p)) P)%R; [|ring]. rewrite <- lsr_scal. apply lsr_ext. intros p _.
      transitivity (BIG_G * X * Rabs (pm p) * lsr (fun p => Rabs (pm p)) S)%R; [|ring]. rewrite <- lsr_scal. apply lsr_ext. intros s _.
      rewrite !Rabs_mult, (Rabs_pos_eq BIG_G) by assumption. ring. }
  assert (HT := force_tail_nonneg L a b Hab). fold (force_tail L a b).
  split; [|split].
  - split; [intros s Hs; specialize (HS s Hs); lra|]. intros p s Hp Hs. specialize (HP p Hp). specialize (HS s Hs). lra.
  - apply G; [exact HT|]. intros p s Hp Hs. apply force_tail_mono; [split; [apply vnorm_ge0|now apply HP]|lra|now apply HS].
  - apply G; [apply Rmult_le_pos; lra|]. intros p s Hp Hs. apply Rmult_le_compat; [apply vnorm_ge0| |now apply HP|].
    + apply force_tail_nonneg. split; [apply vnorm_ge0|]. specialize (HP p Hp). specialize (HS s Hs). lra.
    + apply force_tail_mono; [split; [apply vnorm_ge0|now apply HP]|lra|now apply HS].
Qed.
Print Assumptions C72_in_balls.

(* the bound is attained: two points on one ray *)
Lemma HL_ray d n : HL d (d * d) n = (d ^ n)%R.
Proof.
  revert n. apply nat_ind2; [apply HL_0|rewrite HL_1; ring|]. intros n I0 I1. assert (E := HL_SS d (d * d) n). assert (H := pos_INR n).
  rewrite I0, I1 in E. apply (Rmult_eq_reg_l (INR n + 2)); [|lra]. rewrite E. change (d ^ S (S n))%R with (d * (d * d ^ n))%R. change (d ^ S n)%R with (d * d ^ n)%R. ring.
Qed.
Lemma HG_ray d n : (2 * HG d (d * d) (S n) = (INR n + 1) * (INR n + 2) * d ^ n)%R.
Proof.
  induction n as [|n IH].
  - cbn [HG]. rewrite HL_0. simpl. ring.
  - rewrite HG_S. replace (2 * (d * HG d (d * d) (S n) + (INR (S n) + 1) * HL d (d * d) (S n)))%R with (d * (2 * HG d (d * d) (S n)) + 2 * (INR (S n) + 1) * HL d (d * d) (S n))%R by ring.
    rewrite IH, HL_ray, S_INR. change (d ^ S n)%R with (d * d ^ n)%R. ring.
Qed.
Lemma dterm_ray (r R0 : R) n : (0 < R0)%R -> dterm (0, 0, r) (0, 0, R0) (0, 0, 1) (S n) = ((INR n + 1) * (r / R0) ^ n * / R0)%R.
Proof.
  intros HR. unfold dterm. cbn [pred].
  replace (vdot (0, 0, r)%R (0, 0, R0)%R) with (r * R0)%R by (unfold vdot; ring).
  replace (vdot (0, 0, 1)%R (0, 0, R0)%R) with R0 by (unfold vdot; ring).
  replace (vdot (0, 0, r)%R (0, 0, 1)%R) with r by (unfold vdot; ring).
  replace (vsq (0, 0, R0)%R) with (R0 * R0)%R by (unfold vsq, vdot; ring).
  replace (vsq (0, 0, r)%R) with (r * r)%R by (unfold vsq, vdot; ring).
  replace (r * r * (R0 * R0))%R with (r * R0 * (r * R0))%R by ring.
  assert (E := HG_ray (r * R0) n).
  assert (E' : (2 * (r * R0) * HG (r * R0) (r * R0 * (r * R0)) n = INR n * (INR n + 1) * (r * R0) ^ n)%R).
  { destruct n as [|n]; [cbn [HG]; simpl; ring|]. assert (E' := HG_ray (r * R0) n). rewrite S_INR. change ((r * R0) ^ S n)%R with (r * R0 * (r * R0) ^ n)%R.
    replace (2 * (r * R0) * HG (r * R0) (r * R0 * (r * R0)) (S n))%R with (r * R0 * (2 * HG (r * R0) (r * R0 * (r * R0)) (S n)))%R by ring. rewrite E'. ring. }
  set (g1 := HG (r * R0) (r * R0 * (r * R0)) (S n)) in *. set (g0 := HG (r * R0) (r * R0 * (r * R0)) n) in *. clearbody g1 g0.
  transitivity ((R0 * (2 * g1) - R0 * (2 * (r * R0) * g0)) / 2 * (/ (R0 * R0)) ^ S n)%R; [simpl; field; lra|].
  rewrite E, E'. change ((/ (R0 * R0)) ^ S n)%R with (/ (R0 * R0) * (/ (R0 * R0)) ^ n)%R. unfold Rdiv at 2.
  replace ((r * / R0) ^ n)%R with ((r * R0) ^ n * (/ (R0 * R0)) ^ n)%R by (rewrite <- Rpow_mult_distr; f_equal; field; lra).
  set (X := ((r * R0) ^ n)%R). set (Y := ((/ (R0 * R0)) ^ n)%R). clearbody X Y. field. lra.
Qed.
Lemma sum_ray (r R0 : R) N : (0 <= r < R0)%R -> (sum_n (dterm (0, 0, r) (0, 0, R0) (0, 0, 1)) N / R0 = / (R0 - r) ^ 2 - force_tail N r R0)%R.
Proof.
  intros H. induction N as [|N IH].
  - rewrite sum_O. unfold dterm, force_tail. cbn [HG pred]. simpl. field. repeat split; lra.
  - rewrite sum_Sn. unfold plus; cbn -[sum_n dterm]. rewrite dterm_ray by lra. unfold Rdiv in *. rewrite Rmult_plus_distr_r, IH. unfold force_tail, Rdiv.
    rewrite S_INR. change ((r * / R0) ^ S N)%R with (r * / R0 * (r * / R0) ^ N)%R. set (X := ((r * / R0) ^ N)%R). set (n := INR N). clearbody X n. field. repeat split; lra.
Qed.
Theorem C72_attained : forall m M r R0 (L : nat), (1 <= L)%nat -> (0 < r < R0)%R ->
  let P := (mkpt m (0, 0, r)%R :: nil) in let S := (mkpt M (0, 0, R0)%R :: nil) in
  exists q fx fy fz Fx Fy Fz T, qmoments (Z.of_nat L) P = Ok q /\
    multipole_force (Z.of_nat L) q (Qmomentsb (Z.of_nat L) S) 0 0 0 BIG_G = Ok (RtoC fx, RtoC fy, RtoC fz) /\
    point_matrix_gravity (Rows P) (Rows S) = Ok ((Fx, Fy, Fz), T) /\
    (Rabs (fz - Fz) = force_error L P S)%R /\ inside P S.
Proof.
  intros m M r R0 L HL Hr P S.
  assert (N : forall z : R, (0 <= z)%R -> vnorm (0, 0, z)%R = z).
  { intros z Hz. unfold vnorm. replace (0 ^ 2 + 0 ^ 2 + z ^ 2)%R with (z * z)%R by ring. now apply sqrt_square. }
  assert (Hin : inside P S).
  { split.
    - intros s [<-|[]]. cbn [pp]. rewrite N; lra.
    - intros p s [<-|[]] [<-|[]]. cbn [pp]. rewrite !N; lra. }
  assert (Em : map (moved (0, 0, 0)%R) P = P).
  { unfold P. cbn [map]. f_equal. unfold moved. cbn [pm pp]. f_equal. unfold vadd. apply v3; ring. }
  assert (Ho : ~ origin_before_other P).
  { intros (l1 & p & l2 & q & l3 & E & _ & _). unfold P in E. destruct l1 as [|x [|y l1]]; [|discriminate|discriminate]. injection E as _ E. now destruct l2. }
  destruct (force_dsum P S 0 0 0 L HL ltac:(rewrite Em; exact Hin) Ho) as (q & Eq & Ef).
  destruct (totF wG P S) as [[Fx Fy] Fz] eqn:EF.
  exists q. do 3 eexists. exists Fx, Fy, Fz, (totT wG P S). split; [exact Eq|]. split; [exact Ef|].
  split; [rewrite <- EF; now apply gravity_inside|]. split; [|exact Hin].
  assert (EZ : Fz = vdot (0, 0, 1)%R (totF wG P S)) by (rewrite EF; unfold vdot; ring).
  set (g := fun u : vec => vadd u (0, 0, 0)%R).
  assert (Eg : forall u, g u = u) by (intros [[a b] c]; unfold g, vadd; apply v3; ring).
  assert (EP : carried g P = P) by (unfold carried, P; cbn [map pm pp]; now rewrite Eg).
  rewrite EZ. rewrite <- EP at 2. rewrite totF_at, vdot_vS, <- (power_pf (fun _ => (0, 0, 1)%R) g P S).
  unfold dsum, force_error, P, S, lsr. cbn [fold_right pm pp]. fold (g (0, 0, r)%R). rewrite !Eg, !N by lra. rewrite sum_ray by lra.
  replace (vsub (0, 0, R0)%R (0, 0, r)%R) with (0, 0, R0 - r)%R by (unfold vsub; apply v3; ring). rewrite N by lra.
  replace (vdot (0, 0, 1)%R (0, 0, R0 - r)%R) with (R0 - r)%R by (unfold vdot; ring).
  assert (HT := force_tail_nonneg L r R0 ltac:(lra)).
  match goal with |- Rabs ?x = _ => replace x with (- (BIG_G * m * M * force_tail L r R0))%R by (field; lra) end.
  rewrite Rabs_Ropp, Rabs_mult, (Rabs_pos_eq (force_tail _ _ _)) by exact HT. ring.
Qed.
Print Assumptions C72_attained.
Example C72_case : let P := (mkpt 1 (1, 0, 0)%R :: mkpt 3 v0 :: nil) in let S := (mkpt 2 (0, 3, 0)%R :: nil) in
  inside (map (moved (0, 1, 1)%R) P) S /\ ~ origin_before_other P /\ (forall L, (0 <= force_error L P S)%R).
Proof.
  destruct C46_case as (H1 & H2 & H3 & _). cbv zeta in *. split; [exact H2|]. split; [exact H3|]. intros L. apply lsr_nonneg. intros p Hp. apply lsr_nonneg. intros s Hs.
  apply Rmult_le_pos; [apply Rabs_pos|]. apply force_tail_nonneg. split; [apply vnorm_ge0|]. now apply (proj2 H1).
Qed.
