(* The ring, sectors of rings and cones of newt/glibShapes.py: their arrays tend to the homogeneous solids. *)
From Coq Require Import Reals Lra Lia List.
From Coquelicot Require Import Coquelicot.
From Verif Require Import Glib LipInt BodyInt SolidSpec VInt PointSpec NewtonSpec Newton ShapeSpec GlibShapes GlibShapesProofs Props_GlibShapes QlmProofs3 RefineSpec Refine2 Refine3 Refine4 Refine5 Polar Refine7 Refine8 Refine9.
From Verif Require Import Cplx.
From Verif Require Import Refine.
Import ListNotations.
Open Scope R_scope.

Lemma CInt_ex (f : R -> R) a b : ex_RInt f a b -> is_CInt (fun t => RtoC (f t)) a b (RtoC (RInt f a b)).
Proof. intros H. apply CInt_RtoC. exact (RInt_correct (V := R_CompleteNormedModule) f a b H). Qed.
Section Bodies.
Variables (z0 z1 r1 r2 : R) (rho : R -> R) (beta : R).
Hypotheses (Hz : z0 < z1) (H1 : 0 <= r1) (Hrho : forall z, z0 <= z <= z1 -> r1 <= rho z <= r2) (Urho : UC Rs Rs rho) (Hb : 0 < beta <= PI).
Lemma polar_zr g : UC V3 Rs g -> is_int3 (- beta) beta (fun _ => z0) (fun _ => z1) (fun _ _ => r1) (fun _ z => rho z) (fun ph z r => RtoC r * RtoC (g ((r * cos ph)%R, (r * sin ph)%R, z)))%C (RtoC (polar z0 z1 r1 rho beta g)).
Proof.
  intros G. assert (UR := U_ray r1 rho Urho g G). exists (fun ph z => RtoC (ray r1 rho g (z, ph))), (fun ph => RtoC (RInt (fun z => ray r1 rho g (z, ph)) z0 z1)). split; [|split].
  - intros ph z. eapply is_CInt_ext; [|apply (CInt_ex (fun r => r * g (r * cos ph, r * sin ph, z)))].
    + intros r. cbv beta. now rewrite RtoC_mult.
    + apply ex_int1. assert (U0 : UC Rs Rs (fun y => y)) by (apply UC_LL, LL_id). apply UC_mult; [exact U0|]. apply UC_three; [exact G|apply UC_mult; [exact U0|apply UC_cst]|apply UC_mult; [exact U0|apply UC_cst]|apply UC_cst].
  - intros ph. apply CInt_ex. exact (ex_row _ ph z0 z1 (UC_col _ UR)).
  - unfold polar. change (fun z => RInt (fun th => RInt (fun r => r * g (r * cos th, r * sin th, z)) r1 (rho z)) (- beta) beta) with (fun z => RInt (fun th => ray r1 rho g (z, th)) (- beta) beta).
    rewrite (fubini (ray r1 rho g) z0 z1 (- beta) beta UR). apply CInt_ex. apply ex_int1. exact (UC_row _ z0 z1 (UC_col _ UR)).
Qed.
Lemma polar_pos : (forall z, z0 < z < z1 -> r1 < rho z) -> 0 < polar z0 z1 r1 rho beta (fun _ => 1).
Proof.
  intros Hs. unfold polar. rewrite (RInt_fext _ (fun z => 2 * beta * ((rho z ^ 2 - r1 ^ 2) / 2))).
  - apply RInt_gt_0; [exact Hz| |].
    + intros z Hzz. assert (A := Hs z Hzz). apply Rmult_lt_0_compat; [lra|]. apply Rdiv_lt_0_compat; [|lra]. nra.
    + intros z _. apply (Polar.cont1 (fun z => 2 * beta * ((rho z ^ 2 - r1 ^ 2) / 2)) z). apply UC_mult; [apply UC_cst|]. unfold Rdiv. apply UC_mult; [|apply UC_cst]. apply UC_sub; [|apply UC_cst]. apply (UC_ext Rs Rs (fun z => rho z * rho z)); [intros t; cbn [pow]; rewrite Rmult_1_r; reflexivity|now apply UC_mult].
  - intros z. rewrite (RInt_fext _ (fun _ => (rho z ^ 2 - r1 ^ 2) / 2)).
    + rewrite (RInt_const (V := R_CompleteNormedModule)). change ((beta - - beta) * ((rho z ^ 2 - r1 ^ 2) / 2) = 2 * beta * ((rho z ^ 2 - r1 ^ 2) / 2)). ring.
    + intros th. apply (is_RInt_unique (V := R_CompleteNormedModule)).
      assert (D := is_RInt_derive (V := R_CompleteNormedModule) (fun r => r ^ 2 / 2) (fun r => r * 1) r1 (rho z)). unfold minus, plus, opp in D; cbn in D. replace ((rho z ^ 2 - r1 ^ 2) / 2) with (rho z * (rho z * 1) / 2 + - (r1 * (r1 * 1) / 2)) by field. apply D.
      * intros x _. auto_derive; [trivial|]. field.
      * intros x _. apply (Polar.cont1 (fun r => r * 1) x). apply UC_mult; [apply UC_LL, LL_id|apply UC_cst].
Qed.
Theorem span_counts : r1 < r2 -> counts (sector_span r1 r2 beta z0 z1) (slab z0 z1 r1 rho beta) (polar z0 z1 r1 rho beta).
Proof.
  intros H12. assert (HPI := PI_RGT_0). unfold sector_span. destruct (Rlt_dec beta (PI / 2)) as [L|L].
  - assert (S : 0 < sin beta) by (apply sin_gt_0; lra). assert (C : cos beta <= 1) by apply COS_bound. assert (C0 : 0 < cos beta) by (apply cos_gt_0; lra).
    apply (counts_small z0 z1 r1 r2 rho); cbn [s_x0 s_x1 s_y0 s_y1 s_z0 s_z1]; try assumption; try reflexivity; try lra; nra.
  - destruct (Req_dec beta (PI / 2)) as [E|E].
    + apply (counts_small z0 z1 r1 r2 rho); cbn [s_x0 s_x1 s_y0 s_y1 s_z0 s_z1]; rewrite ?E, ?cos_PI2, ?sin_PI2; try assumption; try reflexivity; lra.
    + assert (C : cos beta <= 0) by (apply cos_le_0; lra). apply (counts_large z0 z1 r1 r2 rho); cbn [s_x0 s_x1 s_y0 s_y1 s_z0 s_z1]; try assumption; try reflexivity; try lra; nra.
Qed.
Lemma span_ok : r1 < r2 -> s_x0 (sector_span r1 r2 beta z0 z1) < s_x1 (sector_span r1 r2 beta z0 z1) /\ s_y0 (sector_span r1 r2 beta z0 z1) < s_y1 (sector_span r1 r2 beta z0 z1) /\ s_z0 (sector_span r1 r2 beta z0 z1) < s_z1 (sector_span r1 r2 beta z0 z1).
Proof.
  intros H12. rewrite sector_span_eq. cbn [s_x0 s_x1 s_y0 s_y1 s_z0 s_z1]. destruct (sector_size r1 r2 beta (conj H1 H12) Hb) as (A & B). split; [exact A|]. split; lra.
Qed.
End Bodies.

Lemma polar_ring z0 z1 r1 r2 beta g : UC V3 Rs g -> is_int3 (- beta) beta (fun _ => r1) (fun _ => r2) (fun _ _ => z0) (fun _ _ => z1) (fun ph r z => RtoC r * RtoC (g ((r * cos ph)%R, (r * sin ph)%R, z)))%C (RtoC (polar z0 z1 r1 (fun _ => r2) beta g)).
Proof.
  intros G. assert (Uc : UC Rs Rs (fun _ : R => r2)) by apply UC_cst. assert (UR := U_ray r1 (fun _ => r2) Uc g G). assert (U0 : UC Rs Rs (fun y => y)) by (apply UC_LL, LL_id).
  assert (UW : forall ph, UC P2 Rs (fun p : R * R => fst p * g (fst p * cos ph, fst p * sin ph, snd p))).
  { intros ph. assert (A1 := UC_fst Rs Rs). assert (A2 := UC_snd Rs Rs). apply UC_mult; [exact A1|]. apply UC_three; [exact G|apply UC_mult; [exact A1|apply UC_cst]|apply UC_mult; [exact A1|apply UC_cst]|exact A2]. }
  exists (fun ph r => RtoC (RInt (fun z => r * g (r * cos ph, r * sin ph, z)) z0 z1)), (fun ph => RtoC (RInt (fun r => RInt (fun z => r * g (r * cos ph, r * sin ph, z)) z0 z1) r1 r2)). split; [|split].
  - intros ph r. eapply is_CInt_ext; [|apply (CInt_ex (fun z => r * g (r * cos ph, r * sin ph, z)))].
    + intros z. cbv beta. now rewrite RtoC_mult.
    + exact (ex_row _ r z0 z1 (UW ph)).
  - intros ph. apply CInt_ex. apply ex_int1. exact (UC_row _ z0 z1 (UW ph)).
  - unfold polar. change (fun z => RInt (fun th => RInt (fun r => r * g (r * cos th, r * sin th, z)) r1 r2) (- beta) beta) with (fun z => RInt (fun th => ray r1 (fun _ => r2) g (z, th)) (- beta) beta).
    rewrite (fubini (ray r1 (fun _ => r2) g) z0 z1 (- beta) beta UR).
    assert (E : forall ph, RInt (fun z => ray r1 (fun _ => r2) g (z, ph)) z0 z1 = RInt (fun r => RInt (fun z => r * g (r * cos ph, r * sin ph, z)) z0 z1) r1 r2).
    { intros ph. exact (eq_sym (fubini _ r1 r2 z0 z1 (UW ph))). }
    eapply is_CInt_ext; [|apply (CInt_ex (fun ph => RInt (fun z => ray r1 (fun _ => r2) g (z, ph)) z0 z1))].
    + intros ph. cbv beta. now rewrite E.
    + apply ex_int1. exact (UC_row _ z0 z1 (UC_col _ UR)).
Qed.
Lemma in_sector_sq r1 r2 beta x y : 0 <= r1 -> in_sector r1 r2 beta x y -> x ^ 2 + y ^ 2 <= r2 ^ 2.
Proof.
  intros H1 (r & q & Hr & _ & -> & ->). assert (T := sin2_cos2 q). unfold Rsqr in T. replace ((r * cos q) ^ 2 + (r * sin q) ^ 2) with (r ^ 2 * (sin q * sin q + cos q * cos q)) by ring. rewrite T, Rmult_1_r. apply pow_incr. lra.
Qed.
Lemma annular_body t r1 r2 beta g : UC V3 Rs g -> annular_sector t r1 r2 0 beta (fun a b c => RtoC (g (a, b, c))) (RtoC (polar (- (t / 2)) (t / 2) r1 (fun _ => r2) beta g)).
Proof.
  intros G. unfold annular_sector. rewrite Rminus_0_l, Rplus_0_l. replace (- t / 2) with (- (t / 2)) by field. exact (polar_ring (- (t / 2)) (t / 2) r1 r2 beta g G).
Qed.
Lemma ring_norm r1 r2 t beta r p : 0 <= r1 -> 0 < t -> 0 <= r -> r2 ^ 2 + (t / 2) ^ 2 <= r ^ 2 -> slab (- (t / 2)) (t / 2) r1 (fun _ => r2) beta p -> vnorm p <= r.
Proof.
  destruct p as [[x y] z]. intros H1 Ht Hr Hn (Z & S). apply in_sector_sq in S; [|exact H1]. apply vnorm_le; [exact Hr|]. assert (z ^ 2 <= (t / 2) ^ 2) by (apply sq_le; [lra|apply Rabs_le_between; lra]). lra.
Qed.
Section Four.
Variables (mass r : R).
Definition limit_solid (S : region) (bx : span) (B : body) : Prop := (forall fam, filling mass S bx fam -> tends fam (of_mass mass B) r) /\
  exists N, forall nx ny nz, (N <= nx)%nat -> (N <= ny)%nat -> (N <= nz)%nat -> (0 < nx)%nat -> (0 < ny)%nat -> (0 < nz)%nat -> ~ (forall v, on_lattice bx nx ny nz v -> ~ S v).
Theorem wedge_tends r1 r2 t beta : 0 <= r1 < r2 -> 0 < t -> 0 < beta <= PI -> 0 <= r -> r2 ^ 2 + (t / 2) ^ 2 <= r ^ 2 ->
  limit_solid (PointSpec.ring_sector r1 r2 t beta) (sector_span r1 r2 beta (- (t / 2)) (t / 2)) (annular_sector t r1 r2 0 beta).
Proof.
  intros H12 Ht Hb Hr Hn. assert (Uc : UC Rs Rs (fun _ : R => r2)) by apply UC_cst. assert (Hrr : forall z : R, - (t / 2) <= z <= t / 2 -> r1 <= r2 <= r2) by (intros; lra).
  assert (C := span_counts (- (t / 2)) (t / 2) r1 r2 (fun _ => r2) beta ltac:(lra) ltac:(lra) Hrr Uc Hb (proj2 H12)).
  assert (PV := polar_pos (- (t / 2)) (t / 2) r1 (fun _ => r2) beta ltac:(lra) ltac:(lra) Uc Hb ltac:(intros; lra)).
  assert (ES : forall v, slab (- (t / 2)) (t / 2) r1 (fun _ => r2) beta v <-> PointSpec.ring_sector r1 r2 t beta v) by (intros [[x y] z]; unfold slab, PointSpec.ring_sector; rewrite Rabs_iff; tauto).
  assert (C' := counts_ext _ _ _ _ _ ES (fun g _ => eq_refl) C). destruct (span_ok (- (t / 2)) (t / 2) r1 r2 beta ltac:(lra) ltac:(lra) Hb (proj2 H12)) as (X1 & X2 & X3). split.
  - intros fam. apply (counted_tends _ _ _ (annular_sector t r1 r2 0 beta) mass r C'); try assumption; [intros g G; now apply annular_body|]. intros v Hv. apply (ring_norm r1 r2 t beta r v); try assumption; [lra|now apply ES].
  - exact (counted_points _ _ _ C' PV).
Qed.
Theorem annulus_tends r1 r2 t : 0 <= r1 < r2 -> 0 < t -> 0 <= r -> r2 ^ 2 + (t / 2) ^ 2 <= r ^ 2 -> limit_solid (PointSpec.ring r1 r2 t) (z_span r2 r2 t) (annular_sector t r1 r2 0 PI).
Proof.
  intros H12 Ht Hr Hn. assert (HPI := PI_RGT_0). assert (Uc : UC Rs Rs (fun _ : R => r2)) by apply UC_cst. assert (Hrr : forall z : R, - (t / 2) <= z <= t / 2 -> r1 <= r2 <= r2) by (intros; lra). assert (Hb : 0 < PI <= PI) by lra.
  assert (C : counts (z_span r2 r2 t) (slab (- (t / 2)) (t / 2) r1 (fun _ => r2) PI) (polar (- (t / 2)) (t / 2) r1 (fun _ => r2) PI)).
  { apply (counts_large (- (t / 2)) (t / 2) r1 r2 (fun _ => r2)); unfold z_span; cbn [s_x0 s_x1 s_y0 s_y1 s_z0 s_z1]; rewrite ?cos_PI; try assumption; try reflexivity; lra. }
  assert (PV := polar_pos (- (t / 2)) (t / 2) r1 (fun _ => r2) PI ltac:(lra) ltac:(lra) Uc Hb ltac:(intros; lra)).
  assert (ES : forall v, slab (- (t / 2)) (t / 2) r1 (fun _ => r2) PI v <-> PointSpec.ring r1 r2 t v).
  { intros [[x y] z]. unfold slab, PointSpec.ring. rewrite Rabs_iff. split.
    - intros (Z & S). split; [|exact Z]. assert (S2 := in_sector_sq _ _ _ _ _ (proj1 H12) S). split; [|exact S2]. destruct S as (q & p & Hq & _ & -> & ->). assert (T := sin2_cos2 p). unfold Rsqr in T. replace ((q * cos p) ^ 2 + (q * sin p) ^ 2) with (q ^ 2 * (sin p * sin p + cos p * cos p)) by ring. rewrite T, Rmult_1_r. apply pow_incr. lra.
    - intros ((S1 & S2) & Z). split; [exact Z|]. destruct (arctan2_polar x y) as (E1 & E2 & E3). exists (rad x y), (MathSpec.arctan2 y x). split; [|split; [lra|now split]]. unfold rad. split.
      + rewrite <- (sqrt_pow2 r1) by lra. now apply sqrt_le_1_alt.
      + rewrite <- (sqrt_pow2 r2) by lra. now apply sqrt_le_1_alt. }
  assert (C' := counts_ext _ _ _ _ _ ES (fun g _ => eq_refl) C). split.
  - intros fam. apply (counted_tends _ _ _ (annular_sector t r1 r2 0 PI) mass r C'); try assumption; unfold z_span; cbn [s_x0 s_x1 s_y0 s_y1 s_z0 s_z1]; try lra; [intros g G; now apply annular_body|]. intros v Hv. apply (ring_norm r1 r2 t PI r v); try assumption; [lra|now apply ES].
  - exact (counted_points _ _ _ C' PV).
Qed.
Theorem cone_tends Rad H beta : 0 < Rad <= r -> 0 < H <= r -> 0 < beta <= PI -> limit_solid (cone_region Rad H beta) (sector_span 0 Rad beta 0 H) (cone_sector H Rad 0 beta).
Proof.
  intros HR HH Hb. set (rho := fun z => Rad * (1 - z / H)). assert (U0 : UC Rs Rs (fun y => y)) by (apply UC_LL, LL_id).
  assert (Uc : UC Rs Rs rho). { unfold rho. apply UC_mult; [apply UC_cst|]. apply UC_sub; [apply UC_cst|]. unfold Rdiv. apply UC_mult; [exact U0|apply UC_cst]. }
  assert (Hs : forall z, 0 <= z <= H -> 0 <= z / H <= 1). { intros z Hz. split; [apply Rmult_le_pos; [lra|left; apply Rinv_0_lt_compat; lra]|]. apply (Rmult_le_reg_r H); [lra|]. replace (z / H * H) with z by (field; lra). lra. }
  assert (Hrr : forall z : R, 0 <= z <= H -> 0 <= rho z <= Rad). { intros z Hz. assert (S := Hs z Hz). unfold rho. split; [apply Rmult_le_pos; lra|]. rewrite <- (Rmult_1_r Rad) at 2. apply Rmult_le_compat_l; lra. }
  assert (C := span_counts 0 H 0 Rad rho beta ltac:(lra) ltac:(lra) Hrr Uc Hb ltac:(lra)).
  assert (PV : 0 < polar 0 H 0 rho beta (fun _ => 1)). { apply (polar_pos 0 H 0 rho beta ltac:(lra) ltac:(lra) Uc Hb). intros z Hz. unfold rho. apply Rmult_lt_0_compat; [lra|]. assert (z / H < 1); [|lra]. apply (Rmult_lt_reg_r H); [lra|]. replace (z / H * H) with z by (field; lra). lra. }
  destruct (span_ok 0 H 0 Rad beta ltac:(lra) ltac:(lra) Hb ltac:(lra)) as (X1 & X2 & X3). split.
  - intros fam. apply (counted_tends _ (cone_region Rad H beta) (polar 0 H 0 rho beta) (cone_sector H Rad 0 beta) mass r C); try assumption.
    + intros g G. unfold cone_sector. rewrite Rminus_0_l, Rplus_0_l. exact (polar_zr 0 H 0 rho beta Uc g G).
    + intros [[x y] z] (Z & S). apply in_sector_sq in S; [|lra]. apply vnorm_le; [lra|]. assert (Q := Hs z Z). replace z with (H * (z / H)) by (field; lra). set (q := z / H) in *. clearbody q.
      assert (A1 : (Rad * (1 - q)) ^ 2 <= (r * (1 - q)) ^ 2) by (apply pow_incr; split; [apply Rmult_le_pos; lra|apply Rmult_le_compat_r; lra]). assert (A2 : (H * q) ^ 2 <= (r * q) ^ 2) by (apply pow_incr; split; [apply Rmult_le_pos; lra|apply Rmult_le_compat_r; lra]).
      assert (A3 : (r * (1 - q)) ^ 2 + (r * q) ^ 2 <= r ^ 2); [|lra]. replace ((r * (1 - q)) ^ 2 + (r * q) ^ 2) with (r ^ 2 * (1 - 2 * (q * (1 - q)))) by ring. rewrite <- (Rmult_1_r (r ^ 2)) at 2. apply Rmult_le_compat_l; [apply pow2_ge_0|]. assert (0 <= q * (1 - q)) by (apply Rmult_le_pos; lra). lra.
  - exact (counted_points _ (cone_region Rad H beta) _ C PV).
Qed.
Theorem outer_cone_tends r1 r2 H beta : 0 <= r1 < r2 -> 0 < H -> 0 < beta <= PI -> 0 <= r -> r2 ^ 2 + H ^ 2 <= r ^ 2 -> limit_solid (outer_cone_region r1 r2 H beta) (sector_span r1 r2 beta 0 H) (outer_cone_sector r1 r2 H beta).
Proof.
  intros H12 HH Hb Hr Hn. set (rho := fun z => r2 - (r2 - r1) * z / H). assert (U0 : UC Rs Rs (fun y => y)) by (apply UC_LL, LL_id).
  assert (Uc : UC Rs Rs rho). { unfold rho. apply UC_sub; [apply UC_cst|]. unfold Rdiv. apply UC_mult; [apply UC_mult; [apply UC_cst|exact U0]|apply UC_cst]. }
  assert (Hs : forall z, 0 <= z <= H -> 0 <= z / H <= 1). { intros z Hz. split; [apply Rmult_le_pos; [lra|left; now apply Rinv_0_lt_compat]|]. apply (Rmult_le_reg_r H); [lra|]. replace (z / H * H) with z by (field; lra). lra. }
  assert (Er : forall z, rho z = r2 - (r2 - r1) * (z / H)) by (intros z; unfold rho; field; lra).
  assert (Hrr : forall z : R, 0 <= z <= H -> r1 <= rho z <= r2). { intros z Hz. assert (S := Hs z Hz). rewrite Er. split; nra. }
  assert (C := span_counts 0 H r1 r2 rho beta ltac:(lra) ltac:(lra) Hrr Uc Hb ltac:(lra)).
  assert (PV : 0 < polar 0 H r1 rho beta (fun _ => 1)). { apply (polar_pos 0 H r1 rho beta ltac:(lra) ltac:(lra) Uc Hb). intros z Hz. rewrite Er. assert (z / H < 1); [|nra]. apply (Rmult_lt_reg_r H); [lra|]. replace (z / H * H) with z by (field; lra). lra. }
  destruct (span_ok 0 H r1 r2 beta ltac:(lra) ltac:(lra) Hb ltac:(lra)) as (X1 & X2 & X3). split.
  - intros fam. apply (counted_tends _ (outer_cone_region r1 r2 H beta) (polar 0 H r1 rho beta) (outer_cone_sector r1 r2 H beta) mass r C); try assumption.
    + intros g G. exact (polar_zr 0 H r1 rho beta Uc g G).
    + intros [[x y] z] (Z & S). apply in_sector_sq in S; [|lra]. apply vnorm_le; [lra|]. assert (Q := Hrr z Z). unfold rho in Q. assert ((r2 - (r2 - r1) * z / H) ^ 2 <= r2 ^ 2) by (apply pow_incr; lra). assert (z ^ 2 <= H ^ 2) by (apply pow_incr; lra). lra.
  - exact (counted_points _ (outer_cone_region r1 r2 H beta) _ C PV).
Qed.
End Four.
