(* C61: two mass distributions put together from the library's solids and point masses: energy, force and torque computed
   from their moments tend to Newton's double integrals as the degree grows. *)
From Coq Require Import Reals Lra Lia ZArith List.
From Coquelicot Require Import Coquelicot.
From Verif Require Import Sums Props_Multipole TransSpec TransRecProofs NewtonSpec Irreg Props_Series Newton CDeriv MultipoleLib MultipoleProofs RotSpec Rotations Translations Props_Torque Props_Series2 Addition Irreg2 Legendre.
From Verif Require Import LipInt BodyPair BodyLim BodyInt BodyShapes Pg2MultiProofs.
From Verif Require Import BuiltSpec.
From Verif Require Import Cplx.
Open Scope R_scope.

Lemma nice_built B r : built B r -> nice B r.
Proof.
  induction 1.
  - now apply nice_annular. - now apply nice_standing. - apply nice_cone; tauto. - now apply nice_box. - now apply nice_tri. - now apply nice_corner.
  - now apply nice_apex. - now apply nice_pyramid. - now apply nice_ball. - now apply nice_frustum. - now apply nice_trap. - now apply nice_segment. - now apply nice_hole.
  - now apply nice_points. - now apply nice_dense. - now apply (nice_of_mass m V). - now apply nice_shifted. - now apply nice_turned. - now apply nice_turned_z.
  - now apply nice_together. - now apply nice_union. - now apply (nice_weaken B r r').
Qed.
(* ---- the integrals exist ---- *)
Lemma pair_exists B1 r1 B2 r2 k (F : vec * vec -> R) : nice B1 r1 -> nice B2 r2 -> LL (pprod V3 V3) Rs F ->
  (forall v w, vnorm v <= r1 -> vnorm w <= r2 -> F (v, w) = k v w) -> exists J, pair_integral B1 r1 B2 r2 k J.
Proof.
  intros N1 N2 HF E. destruct (n_int _ _ N2 V3 F HF) as (g & Hg & G).
  destruct (n_int _ _ N1 V3 (fun p : vec * vec => g (snd p))) as (h & _ & K). { exact (LL_comp (pprod V3 V3) V3 Rs snd g (LL_snd V3 V3) Hg). }
  exists (h v0), (fun v w => F (v, w)), g. split; [exact E|]. split; [exact G|exact (K v0)].
Qed.
Lemma LL_sub3 (X : pspace) (f g : X -> vec) : LL X V3 f -> LL X V3 g -> LL X V3 (fun x => vsub (f x) (g x)).
Proof.
  intros Hf Hg. apply (LL_ext X V3 (fun x => (fst (fst (f x)) - fst (fst (g x)), snd (fst (f x)) - snd (fst (g x)), snd (f x) - snd (g x)))).
  { intros x. destruct (f x) as [[? ?] ?], (g x) as [[? ?] ?]. reflexivity. }
  assert (P : forall h : X -> vec, LL X V3 h -> LL X Rs (fun x => fst (fst (h x))) /\ LL X Rs (fun x => snd (fst (h x))) /\ LL X Rs (fun x => snd (h x))).
  { intros h Hh. split; [exact (LL_comp X V3 Rs h _ Hh LL1)|]. split; [exact (LL_comp X V3 Rs h _ Hh LL2)|exact (LL_comp X V3 Rs h _ Hh LL3)]. }
  destruct (P f Hf) as (F1 & F2 & F3). destruct (P g Hg) as (G1 & G2 & G3).
  apply LLp; [exact (LL_minus X _ _ F1 G1)|exact (LL_minus X _ _ F2 G2)|exact (LL_minus X _ _ F3 G3)].
Qed.
Lemma LL_dot3 (X : pspace) (f g : X -> vec) : LL X V3 f -> LL X V3 g -> LL X Rs (fun x => vdot (f x) (g x)).
Proof.
  intros Hf Hg. apply (LL_ext X Rs (fun x => fst (fst (f x)) * fst (fst (g x)) + snd (fst (f x)) * snd (fst (g x)) + snd (f x) * snd (g x))).
  { intros x. destruct (f x) as [[? ?] ?], (g x) as [[? ?] ?]. reflexivity. }
  assert (P : forall h : X -> vec, LL X V3 h -> LL X Rs (fun x => fst (fst (h x))) /\ LL X Rs (fun x => snd (fst (h x))) /\ LL X Rs (fun x => snd (h x))).
  { intros h Hh. split; [exact (LL_comp X V3 Rs h _ Hh LL1)|]. split; [exact (LL_comp X V3 Rs h _ Hh LL2)|exact (LL_comp X V3 Rs h _ Hh LL3)]. }
  destruct (P f Hf) as (F1 & F2 & F3). destruct (P g Hg) as (G1 & G2 & G3).
  exact (LL_plus X _ _ (LL_plus X _ _ (LL_mult X _ _ F1 G1) (LL_mult X _ _ F2 G2)) (LL_mult X _ _ F3 G3)).
Qed.
Section Kernels.
  Variables (M e : vec -> vec) (t : vec) (r1 r2 rm : R).
  Hypotheses (HM : LL V3 V3 M) (He : LL V3 V3 e) (Hm : forall v, vnorm v <= r1 -> vnorm (M v) <= rm) (Hs : rm + r2 < vnorm t).
  Definition gap (p : vec * vec) : vec := vsub (vadd (snd p) t) (M (fst p)).
  Definition soft (p : vec * vec) : R := / Rmax (vnorm (gap p)) (vnorm t - rm - r2).
  Lemma LL_gap : LL (pprod V3 V3) V3 gap.
  Proof.
    apply (LL_sub3 (pprod V3 V3) (fun p => vadd (snd p) t) (fun p => M (fst p))).
    - exact (LL_comp (pprod V3 V3) V3 V3 snd _ (LL_snd V3 V3) (LL_vadd t)).
    - exact (LL_comp (pprod V3 V3) V3 V3 fst M (LL_fst V3 V3) HM).
  Qed.
  Lemma LL_soft : LL (pprod V3 V3) Rs soft.
  Proof.
    apply (LL_comp (pprod V3 V3) Rs Rs (fun p => vnorm (gap p)) (fun x => / Rmax x (vnorm t - rm - r2))); [|apply LL_invmax; lra].
    exact (LL_comp (pprod V3 V3) V3 Rs gap _ LL_gap LL_vnorm).
  Qed.
  Lemma soft_eq v w : vnorm v <= r1 -> vnorm w <= r2 -> soft (v, w) = / vnorm (vsub (vadd w t) (M v)).
  Proof.
    intros Hv Hw. unfold soft, gap. cbn [fst snd]. f_equal. apply Rmax_left. assert (H1 := Hm v Hv).
    assert (T1 := vnorm_triangle (vsub (vadd w t) (M v)) (vsub (M v) w)). replace (vadd (vsub (vadd w t) (M v)) (vsub (M v) w)) with t in T1.
    2:{ destruct w as [[? ?] ?], t as [[? ?] ?], (M v) as [[? ?] ?]. unfold vadd, vsub. apply v3; ring. }
    assert (T2 := vnorm_triangle (M v) (vopp w)). replace (vadd (M v) (vopp w)) with (vsub (M v) w) in T2. 2:{ destruct w as [[? ?] ?], (M v) as [[? ?] ?]. unfold vadd, vsub, vopp. apply v3; ring. }
    replace (vnorm (vopp w)) with (vnorm w) in T2. 2:{ destruct w as [[? ?] ?]. unfold vopp. rewrite !vnorm_xyz. f_equal. ring. }
    lra.
  Qed.
  Lemma energy_exists B1 B2 : nice B1 r1 -> nice B2 r2 -> exists J, pair_integral B1 r1 B2 r2 (fun v w => near_energy (M v) (vadd w t)) J.
  Proof. intros N1 N2. apply (pair_exists _ _ _ _ _ soft N1 N2 LL_soft). intros v w Hv Hw. now apply soft_eq. Qed.
  Lemma pull_exists B1 B2 : nice B1 r1 -> nice B2 r2 -> exists J, pair_integral B1 r1 B2 r2 (fun v w => pull (e v) (M v) (vadd w t)) J.
  Proof.
    intros N1 N2. apply (pair_exists _ _ _ _ _ (fun p => vdot (e (fst p)) (gap p) * soft p ^ 3) N1 N2).
    - apply (LL_mult (pprod V3 V3)); [|exact (LL_pow (pprod V3 V3) soft 3 LL_soft)].
      apply (LL_dot3 (pprod V3 V3) (fun p => e (fst p)) gap); [|exact LL_gap]. exact (LL_comp (pprod V3 V3) V3 V3 fst e (LL_fst V3 V3) He).
    - intros v w Hv Hw. rewrite soft_eq by assumption. unfold pull, gap, Rdiv. cbn [fst snd]. now rewrite pow_inv.
  Qed.
End Kernels.
Lemma LL_cst3 (X : pspace) (c : vec) : LL X V3 (fun _ => c).
Proof. destruct c as [[a b] d]. apply (LLp X (fun _ => a) (fun _ => b) (fun _ => d)); [exact (LLc X a)|exact (LLc X b)|exact (LLc X d)]. Qed.
Lemma LL_cross_z (f : vec -> vec) : LL V3 V3 f -> LL V3 V3 (fun v => vcross (0, 0, 1) (f v)).
Proof.
  intros Hf. apply (LL_ext V3 V3 (fun v => (0 * snd (f v) - 1 * snd (fst (f v)), 1 * fst (fst (f v)) - 0 * snd (f v), 0 * snd (fst (f v)) - 0 * fst (fst (f v))))).
  { intros v. destruct (f v) as [[a b] d]. reflexivity. }
  assert (F1 := LL_comp V3 V3 Rs f _ Hf LL1). assert (F2 := LL_comp V3 V3 Rs f _ Hf LL2). assert (F3 := LL_comp V3 V3 Rs f _ Hf LL3). cbv beta in *.
  apply LLp; apply (LL_minus V3); apply (LL_mult V3); (exact (LLc V3 0) || exact (LLc V3 1) || assumption).
Qed.
(* ==== C61 ==== *)
Theorem C61_integral_unique : forall B1 r1 B2 r2 k I J, built B1 r1 -> built B2 r2 -> pair_integral B1 r1 B2 r2 k I -> pair_integral B1 r1 B2 r2 k J -> I = J.
Proof. intros B1 r1 B2 r2 k I J H1 H2. apply nice_built in H1. apply nice_built in H2. destruct H1, H2. now apply pair_unique. Qed.
Theorem C61_energy : forall B1 r1 B2 r2 t c, built B1 r1 -> built B2 r2 -> r1 + r2 < vnorm t ->
  exists E, pair_integral B1 r1 B2 r2 (fun v w => near_energy v (vadd w t)) E /\
  forall eps, 0 < eps -> exists D, forall q qs, (D <= deg q)%Z -> deg qs = deg q -> moments_of q B1 -> moments_of qs B2 ->
  exists Q, translate_q2Q qs t = Ok Q /\ deg Q = deg q /\ Cmod (work c (deg q) (mom q) (mom Q) - RtoC (c * E))%C < eps.
Proof.
  intros B1 r1 B2 r2 t c H1 H2 Ht. apply nice_built in H1. apply nice_built in H2.
  destruct (energy_exists (fun v => v) t r1 r2 r1 (LL_id V3) ltac:(easy) Ht B1 B2 H1 H2) as (E & HE). exists E. split; [exact HE|]. intros eps He. destruct H1, H2. now apply (energy_limit B1 r1 B2 r2).
Qed.
Theorem C61_force : forall B1 r1 B2 r2 t x y z c, built B1 r1 -> built B2 r2 -> r1 + vnorm (x, y, z) + r2 < vnorm t ->
  exists Fx Fy Fz,
    pair_integral B1 r1 B2 r2 (fun v w => pull (1, 0, 0) (vadd v (x, y, z)) (vadd w t)) Fx /\
    pair_integral B1 r1 B2 r2 (fun v w => pull (0, 1, 0) (vadd v (x, y, z)) (vadd w t)) Fy /\
    pair_integral B1 r1 B2 r2 (fun v w => pull (0, 0, 1) (vadd v (x, y, z)) (vadd w t)) Fz /\
  forall eps, 0 < eps -> exists D, forall q qs, (D <= deg q)%Z -> deg qs = deg q -> moments_of q B1 -> moments_of qs B2 ->
  exists Q f, translate_q2Q qs t = Ok Q /\ multipole_force (deg q) q Q x y z c = Ok f /\ near eps f (c * Fx, c * Fy, c * Fz).
Proof.
  intros B1 r1 B2 r2 t x y z c H1 H2 Ht. apply nice_built in H1. apply nice_built in H2.
  assert (K : forall e, exists J, pair_integral B1 r1 B2 r2 (fun v w => pull e (vadd v (x, y, z)) (vadd w t)) J).
  { intros e. apply (pull_exists (fun v => vadd v (x, y, z)) (fun _ => e) t r1 r2 (r1 + vnorm (x, y, z)) (LL_vadd _) (LL_cst3 V3 e)); [|exact Ht|exact H1|exact H2]. intros v Hv. assert (T := vnorm_triangle v (x, y, z)). lra. }
  destruct (K (1, 0, 0)) as (Fx & HX). destruct (K (0, 1, 0)) as (Fy & HY). destruct (K (0, 0, 1)) as (Fz & HZ). exists Fx, Fy, Fz. split; [exact HX|]. split; [exact HY|]. split; [exact HZ|].
  intros eps He. destruct H1, H2. now apply (force_limit B1 r1 B2 r2).
Qed.
Theorem C61_torque : forall B1 r1 B2 r2 t phi c, built B1 r1 -> built B2 r2 -> r1 + r2 < vnorm t ->
  exists T, pair_integral B1 r1 B2 r2 (fun v w => twist (zrot phi v) (vadd w t)) T /\
  forall eps, 0 < eps -> exists D, forall q qs, (D <= deg q)%Z -> deg qs = deg q -> moments_of q B1 -> moments_of qs B2 ->
  exists Q nlm nc ns n, translate_q2Q qs t = Ok Q /\ torque_lm q Q c = Ok (nlm, nc, ns) /\ torques_at_angle nc ns phi false = Ok n /\ Rabs (n - c * T) < eps.
Proof.
  intros B1 r1 B2 r2 t phi c H1 H2 Ht. apply nice_built in H1. apply nice_built in H2.
  destruct (pull_exists (zrot phi) (fun v => vcross (0, 0, 1) (zrot phi v)) t r1 r2 r1 (LL_zrot phi) (LL_cross_z _ (LL_zrot phi)) ltac:(intros; now rewrite vnorm_zrot) Ht B1 B2 H1 H2) as (T & HT).
  exists T. split; [exact HT|]. intros eps He. destruct H1, H2. now apply (torque_limit B1 r1 B2 r2).
Qed.
(* for point masses the double integral is the sum over pairs *)
Theorem C61_points : forall P r1 Q r2 k, pair_integral (point_masses P) r1 (point_masses Q) r2 k
  (lsr (fun p => lsr (fun s => pm p * pm s * k (pp p) (pp s)) Q) P).
Proof.
  intros P r1 Q r2 k. exists k, (fun v => lsr (fun s => pm s * k v (pp s)) Q). split; [reflexivity|]. split.
  - intros v. unfold point_masses. rewrite <- lsum_RtoC. apply lsum_ext. intros [m [[a b] d]] _. cbn [pm pp]. apply RtoC_mult.
  - unfold point_masses. rewrite <- lsum_RtoC. apply lsum_ext. intros [m [[a b] d]] _. cbn [pm pp]. rewrite <- RtoC_mult. f_equal. rewrite <- lsr_scal. apply lsr_ext. intros s _. ring.
Qed.
(* the hypotheses are met: a cylinder and a ball, three units apart *)
Example C61_case : built (annular_sector 1 0 1 PI PI) 2 /\ built (dense 5 (solid_ball 1)) 1 /\ 2 + 1 < vnorm (0, 0, 4).
Proof.
  split; [apply b_cylinder_shell; lra|]. split; [apply b_dense, b_ball; lra|]. rewrite vnorm_xyz. replace (0 ^ 2 + 0 ^ 2 + 4 ^ 2) with (4 ^ 2) by ring. rewrite sqrt_pow2; lra.
Qed.
Print Assumptions C61_integral_unique.
Print Assumptions C61_energy.
Print Assumptions C61_force.
Print Assumptions C61_torque.
Print Assumptions C61_points.
