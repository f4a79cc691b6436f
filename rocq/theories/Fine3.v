(* Towards C78: Lipschitz bounds of the Newton and Yukawa kernels. *)
From Coq Require Import Reals Lra Lia List ZArith.
From Coquelicot Require Import Coquelicot.
From Verif Require Import Glib GlibSpec GlibProofs NewtonSpec Newton MomentSpec Pg2MultiProofs Addition Irreg2 FineSpec.
From Verif Require Import Cplx.
Open Scope R_scope.

Lemma vn_ge0 v : 0 <= vnorm v. Proof. destruct v as [[a b] c]. rewrite vnorm_xyz. apply sqrt_pos. Qed.
Lemma vn_sq v : vnorm v ^ 2 = vdot v v.
Proof. destruct v as [[a b] c]. rewrite vnorm_xyz. rewrite pow2_sqrt by (assert (A := pow2_ge_0 a); assert (B := pow2_ge_0 b); assert (D := pow2_ge_0 c); lra). unfold vdot. ring. Qed.
Lemma vn_dot v w : Rabs (vdot v w) <= vnorm v * vnorm w.
Proof.
  assert (A := vn_ge0 v). assert (B := vn_ge0 w). assert (AB : 0 <= vnorm v * vnorm w) by now apply Rmult_le_pos. apply Rsqr_incr_0_var; [|exact AB]. rewrite <- Rsqr_abs. unfold Rsqr.
  replace (vnorm v * vnorm w * (vnorm v * vnorm w)) with (vnorm v ^ 2 * vnorm w ^ 2) by ring. rewrite !vn_sq.
  destruct v as [[a b] c], w as [[a' b'] c']. unfold vdot. assert (P := pow2_ge_0 (a * b' - b * a')). assert (Q := pow2_ge_0 (a * c' - c * a')). assert (S := pow2_ge_0 (b * c' - c * b')). nra.
Qed.
Lemma vn_scal s v : vnorm (vscal s v) = Rabs s * vnorm v.
Proof.
  assert (A := vn_ge0 v). assert (B := Rabs_pos s). assert (D := vn_ge0 (vscal s v)). apply Rsqr_inj; [exact D|now apply Rmult_le_pos|]. rewrite !Rsqr_pow2. rewrite Rpow_mult_distr, pow2_abs, !vn_sq. destruct v as [[a b] c]. unfold vscal, vdot. ring.
Qed.
Lemma radial K s s' x y : 0 <= K -> 0 <= s -> 0 <= s' -> Rabs (s * vnorm x - s' * vnorm y) <= K * Rabs (vnorm x - vnorm y) -> s * vnorm x + s' * vnorm y <= K * (vnorm x + vnorm y) ->
  vnorm (vsub (vscal s x) (vscal s' y)) <= K * vnorm (vsub x y).
Proof.
  intros HK Hs Hs' H1 H2. assert (A := vn_ge0 x). assert (B := vn_ge0 y). assert (D := vn_ge0 (vsub x y)).
  apply Rsqr_incr_0_var; [|now apply Rmult_le_pos]. rewrite !Rsqr_pow2, Rpow_mult_distr, !vn_sq.
  assert (E1 : vdot (vsub (vscal s x) (vscal s' y)) (vsub (vscal s x) (vscal s' y)) = s ^ 2 * vnorm x ^ 2 + s' ^ 2 * vnorm y ^ 2 - 2 * (s * s') * vdot x y).
  { rewrite !vn_sq. destruct x as [[a b] c], y as [[a' b'] c']. unfold vsub, vscal, vdot. ring. }
  assert (E2 : vdot (vsub x y) (vsub x y) = vnorm x ^ 2 + vnorm y ^ 2 - 2 * vdot x y). { rewrite !vn_sq. destruct x as [[a b] c], y as [[a' b'] c']. unfold vsub, vdot. ring. }
  rewrite E1, E2. assert (CS := vn_dot x y). set (c := vdot x y) in *. set (a := vnorm x) in *. set (b := vnorm y) in *. clearbody a b c. clear E1 E2 D.
  assert (Q1 : (s * a - s' * b) ^ 2 <= K ^ 2 * (a - b) ^ 2). { rewrite <- (pow2_abs (s * a - s' * b)), <- (pow2_abs (a - b)), <- Rpow_mult_distr. apply pow_incr. split; [apply Rabs_pos|exact H1]. }
  assert (Q2 : (s * a + s' * b) ^ 2 <= K ^ 2 * (a + b) ^ 2). { rewrite <- Rpow_mult_distr. apply pow_incr. split; [assert (0 <= s * a) by (now apply Rmult_le_pos); assert (0 <= s' * b) by (now apply Rmult_le_pos); lra|exact H2]. }
  apply Rabs_le_between in CS.
  set (al := K ^ 2 * (a ^ 2 + b ^ 2) - s ^ 2 * a ^ 2 - s' ^ 2 * b ^ 2). set (be := 2 * (s * s') - 2 * K ^ 2).
  assert (G1 : 0 <= al + be * (a * b)) by (unfold al, be; nra). assert (G2 : 0 <= al - be * (a * b)) by (unfold al, be; nra).
  assert (G : 0 <= al + be * c). { destruct (Rle_dec 0 be) as [P|P]; [assert (be * - (a * b) <= be * c) by (apply Rmult_le_compat_l; lra); lra|assert (be * (a * b) <= be * c) by (apply Rmult_le_compat_neg_l; lra); lra]. }
  unfold al, be in G. lra.
Qed.
(* the nearest point of the ball *)
Definition into (r : R) (v : vec) : vec := vscal (r / Rmax (vnorm v) r) v.
Lemma into_in r v : 0 < r -> vnorm v <= r -> into r v = v.
Proof. intros Hr H. unfold into. rewrite Rmax_right by exact H. replace (r / r) with 1 by (field; lra). destruct v as [[a b] c]. unfold vscal. apply v3; ring. Qed.
Lemma into_size r v : 0 < r -> vnorm (into r v) = Rmin (vnorm v) r.
Proof.
  intros Hr. unfold into. rewrite vn_scal. assert (A := vn_ge0 v). assert (M : 0 < Rmax (vnorm v) r) by (apply Rlt_le_trans with r; [exact Hr|apply Rmax_r]). rewrite Rabs_pos_eq by (left; now apply Rdiv_lt_0_compat).
  unfold Rmax, Rmin. destruct (Rle_dec (vnorm v) r); field; lra.
Qed.
Lemma into_lip r v w : 0 < r -> vnorm (vsub (into r v) (into r w)) <= vnorm (vsub v w).
Proof.
  intros Hr. rewrite <- (Rmult_1_l (vnorm (vsub v w))). assert (S : forall u, 0 < r / Rmax (vnorm u) r) by (intros u; apply Rdiv_lt_0_compat; [exact Hr|apply Rlt_le_trans with r; [exact Hr|apply Rmax_r]]).
  assert (E : forall u, r / Rmax (vnorm u) r * vnorm u = Rmin (vnorm u) r). { intros u. rewrite <- (into_size r u Hr). unfold into. rewrite vn_scal, Rabs_pos_eq by (left; apply S). reflexivity. }
  apply radial; [lra|left; apply S|left; apply S| |].
  - rewrite !E, Rmult_1_l. unfold Rmin. destruct (Rle_dec (vnorm v) r), (Rle_dec (vnorm w) r); unfold Rabs; repeat destruct Rcase_abs; lra.
  - rewrite !E, Rmult_1_l. assert (A := Rmin_l (vnorm v) r). assert (B := Rmin_l (vnorm w) r). lra.
Qed.

(* ---- attraction by a weight that depends on the distance ---- *)
Section Weight.
Variables (W : R -> R) (d : R).
Hypotheses (Hd : 0 < d) (W0 : forall a, 0 < a -> 0 <= W a <= / a ^ 3) (W1 : forall a b, d <= a -> d <= b -> Rabs (a * W a - b * W b) <= 2 / d ^ 3 * Rabs (a - b)).
Definition hd (x : vec) : vec := vscal (W (Rmax (vnorm x) d)) x.
Lemma hd_far x : d <= vnorm x -> hd x = vscal (W (vnorm x)) x. Proof. intros H. unfold hd. now rewrite Rmax_left. Qed.
Lemma d3 : 0 < / d ^ 3. Proof. apply Rinv_0_lt_compat, pow_lt, Hd. Qed.
Lemma w_le a : d <= a -> 0 <= W a <= / d ^ 3.
Proof. intros H. destruct (W0 a ltac:(lra)) as (A & B). split; [exact A|]. eapply Rle_trans; [exact B|]. apply Rinv_le_contravar; [now apply pow_lt|]. apply pow_incr. lra. Qed.
Lemma wmax a : 0 <= W (Rmax a d) <= / d ^ 3. Proof. apply w_le, Rmax_r. Qed.
Lemma hd_size x : vnorm (hd x) <= / d ^ 2.
Proof.
  unfold hd. rewrite vn_scal, Rabs_pos_eq by apply wmax. assert (A := vn_ge0 x). unfold Rmax. destruct (Rle_dec (vnorm x) d) as [H|H].
  - apply Rle_trans with (/ d ^ 3 * d); [|right; field; lra]. apply Rmult_le_compat; [apply (w_le d); lra|exact A|apply (w_le d); lra|exact H].
  - destruct (W0 (vnorm x) ltac:(lra)) as (P & Q). apply Rle_trans with (/ vnorm x ^ 3 * vnorm x); [apply Rmult_le_compat_r; [exact A|exact Q]|]. replace (/ vnorm x ^ 3 * vnorm x) with (/ vnorm x ^ 2) by (field; lra).
    apply Rinv_le_contravar; [apply pow_lt, Hd|]. apply pow_incr. lra.
Qed.
Lemma phi_lip a b : 0 <= a -> 0 <= b -> Rabs (W (Rmax a d) * a - W (Rmax b d) * b) <= 2 / d ^ 3 * Rabs (a - b).
Proof.
  assert (D := d3). assert (WD := w_le d ltac:(lra)).
  assert (L : forall a b, a <= d -> b <= d -> Rabs (W d * a - W d * b) <= 2 / d ^ 3 * Rabs (a - b)).
  { intros u v _ _. rewrite <- Rmult_minus_distr_l, Rabs_mult, (Rabs_pos_eq (W d)) by lra. apply Rmult_le_compat_r; [apply Rabs_pos|]. unfold Rdiv. lra. }
  assert (G : forall a b, a <= d -> d <= b -> Rabs (W d * a - W b * b) <= 2 / d ^ 3 * Rabs (a - b)).
  { intros u v Hu Hv. replace (W d * u - W v * v) with ((W d * u - W d * d) + (d * W d - v * W v)) by ring. eapply Rle_trans; [apply Rabs_triang|]. assert (A := L u d Hu ltac:(lra)). assert (B := W1 d v ltac:(lra) Hv).
    rewrite (Rabs_left1 (u - v)) by lra. rewrite (Rabs_left1 (u - d)) in A by lra. rewrite (Rabs_left1 (d - v)) in B by lra. replace (2 / d ^ 3 * - (u - v)) with (2 / d ^ 3 * - (u - d) + 2 / d ^ 3 * - (d - v)) by ring. lra. }
  intros Ha Hb. unfold Rmax. destruct (Rle_dec a d) as [A|A], (Rle_dec b d) as [B|B].
  - now apply L.
  - apply G; lra.
  - rewrite Rabs_minus_sym, (Rabs_minus_sym a b). apply G; lra.
  - rewrite (Rmult_comm (W a)), (Rmult_comm (W b)). apply W1; lra.
Qed.
Lemma hd_lip x y : vnorm (vsub (hd x) (hd y)) <= 2 / d ^ 3 * vnorm (vsub x y).
Proof.
  assert (D := d3). assert (A := vn_ge0 x). assert (B := vn_ge0 y). unfold hd. apply radial; [unfold Rdiv; lra|apply wmax|apply wmax|now apply phi_lip|].
  assert (P := wmax (vnorm x)). assert (Q := wmax (vnorm y)). assert (W (Rmax (vnorm x) d) * vnorm x <= / d ^ 3 * vnorm x) by (apply Rmult_le_compat_r; lra). assert (W (Rmax (vnorm y) d) * vnorm y <= / d ^ 3 * vnorm y) by (apply Rmult_le_compat_r; lra).
  unfold Rdiv. assert (0 <= / d ^ 3 * (vnorm x + vnorm y)) by (apply Rmult_le_pos; lra). lra.
Qed.
(* the component along a direction that changes with the first point *)
Variables (e : vec -> vec) (E0 E1 : R) (t : vec).
Hypotheses (P0 : 0 <= E0) (P1 : 0 <= E1) (HE0 : forall v, vnorm (e v) <= E0) (HE1 : forall v w, vnorm (vsub (e v) (e w)) <= E1 * vnorm (vsub v w)).
Definition Fk (v w : vec) : R := vdot (e v) (hd (vsub (vadd w t) v)).
Lemma dot_sub a b c : vdot a b - vdot a c = vdot a (vsub b c). Proof. destruct a as [[? ?] ?], b as [[? ?] ?], c as [[? ?] ?]. unfold vdot, vsub. ring. Qed.
Lemma dot_sub' a b c : vdot a c - vdot b c = vdot (vsub a b) c. Proof. destruct a as [[? ?] ?], b as [[? ?] ?], c as [[? ?] ?]. unfold vdot, vsub. ring. Qed.
Lemma Fk_second v : lip (E0 * (2 / d ^ 3)) (Fk v).
Proof.
  intros w w'. unfold Fk. rewrite dot_sub. eapply Rle_trans; [apply vn_dot|]. rewrite Rmult_assoc. apply Rmult_le_compat; [apply vn_ge0|apply vn_ge0|apply HE0|].
  eapply Rle_trans; [apply hd_lip|]. right. f_equal. f_equal. destruct w as [[? ?] ?], w' as [[? ?] ?], t as [[? ?] ?], v as [[? ?] ?]. unfold vsub, vadd. apply v3; ring.
Qed.
Lemma Fk_first w : lip (E1 * / d ^ 2 + E0 * (2 / d ^ 3)) (fun v => Fk v w).
Proof.
  intros v v'. unfold Fk. set (x := vsub (vadd w t) v). set (y := vsub (vadd w t) v').
  replace (vdot (e v) (hd x) - vdot (e v') (hd y)) with ((vdot (e v) (hd x) - vdot (e v') (hd x)) + (vdot (e v') (hd x) - vdot (e v') (hd y))) by ring.
  eapply Rle_trans; [apply Rabs_triang|]. rewrite Rmult_plus_distr_r. apply Rplus_le_compat.
  - rewrite dot_sub'. eapply Rle_trans; [apply vn_dot|]. replace (E1 * / d ^ 2 * vnorm (vsub v v')) with (E1 * vnorm (vsub v v') * / d ^ 2) by ring. apply Rmult_le_compat; [apply vn_ge0|apply vn_ge0|apply HE1|apply hd_size].
  - rewrite dot_sub. eapply Rle_trans; [apply vn_dot|]. rewrite Rmult_assoc. apply Rmult_le_compat; [apply vn_ge0|apply vn_ge0|apply HE0|].
    eapply Rle_trans; [apply hd_lip|]. right. f_equal. replace (vsub x y) with (vscal (-1) (vsub v v')); [rewrite vn_scal, Rabs_left by lra; ring|]. unfold x, y. destruct w as [[? ?] ?], v' as [[? ?] ?], t as [[? ?] ?], v as [[? ?] ?]. unfold vsub, vadd, vscal. apply v3; ring.
Qed.
End Weight.
