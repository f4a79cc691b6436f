(* C80: the error budget.  The two ways this toolkit computes a force or a torque between solid bodies - point arrays in
   Newton's (or Yukawa's) law, and multipole moments truncated at a degree - agree within the sum of three explicit
   bounds: truncation, fineness of the arrays, rounding. *)
From Coq Require Import Reals Lra Lia ZArith List.
From Coquelicot Require Import Coquelicot.
From Verif Require Import MultipoleProofs2 TranslationsProofs Sums Props_Multipole TransSpec TransRecProofs NewtonSpec Irreg Props_Series Newton CDeriv MultipoleLib MultipoleProofs RotSpec Rotations Translations Props_Torque Props_Series2 Addition Irreg2 Legendre.
From Verif Require Import LipInt BodyPair BodyLim BodyInt BodyShapes Pg2MultiProofs Props_Body Props_Rate Irreg4 Props_Rate2 Props_Rate3.
From Verif Require Import Glib GlibSpec GlibProofs GlibProofs2 NewtonSpec Newton ShapeSpec BodySpec FloatSpec FlGlib Props_Float FlMoves Props_Float2 Props_Float3 GlibShapes PointSpec Props_GlibShapes RefineSpec Refine6 Props_Refine FineSpec Fine2 Fine5 Props_Fine Props_Newton Budget.
From Verif Require Import FlYukSpec FlYuk Props_Float4.
From Verif Require Import Cplx.
Import ListNotations.
Open Scope R_scope.

(* ---- specification ---- *)
(* the total size of a force between masses M1 and M2 at least gap apart *)
Definition most (M1 M2 gap : R) : R := BIG_G * M1 * M2 / gap ^ 2.
(* of a multipole force up to degree L, of bodies in balls of radii that add up to r, their centres R0 apart *)
Definition truncation (L : Z) (M1 M2 r R0 : R) : R := BIG_G * M1 * M2 * force_tail (Z.to_nat L) r R0.
(* of arrays that stand for masses M1, M2 with mass-weighted cell sizes d1, d2 *)
Definition fineness (M1 d1 M2 d2 gap : R) : R := BIG_G * (2 / gap ^ 3 * (M1 * d2 + M2 * d1)).
Definition fineness_torque (r1 M1 d1 M2 d2 gap : R) : R := BIG_G * (2 * r1 / gap ^ 3 * (M1 * d2 + M2 * d1) + M2 * d1 / gap ^ 2).

(* ---- the multipole side ---- *)
Lemma G_pos : 0 <= BIG_G. Proof. unfold BIG_G. lra. Qed.
Lemma grid_multipole_force pts D1 r1 M1 d1 qts D2 r2 M2 d2 t x y z q qs Fx Fy Fz : gridded pts D1 r1 M1 d1 -> gridded qts D2 r2 M2 d2 -> r1 + vnorm (x, y, z) + r2 < vnorm t ->
  pair_integral D1 r1 D2 r2 (fun v w => pull (1, 0, 0) (vadd v (x, y, z)) (vadd w t)) Fx ->
  pair_integral D1 r1 D2 r2 (fun v w => pull (0, 1, 0) (vadd v (x, y, z)) (vadd w t)) Fy ->
  pair_integral D1 r1 D2 r2 (fun v w => pull (0, 0, 1) (vadd v (x, y, z)) (vadd w t)) Fz ->
  (1 <= deg q)%Z -> deg qs = deg q -> moments_of q D1 -> moments_of qs D2 ->
  exists Q fx fy fz, translate_q2Q qs t = Ok Q /\ multipole_force (deg q) q Q x y z BIG_G = Ok (fx, fy, fz) /\
    let b := truncation (deg q) M1 M2 (r1 + vnorm (x, y, z) + r2) (vnorm t) in
    Cmod (fx - RtoC (BIG_G * Fx))%C <= b /\ Cmod (fy - RtoC (BIG_G * Fy))%C <= b /\ Cmod (fz - RtoC (BIG_G * Fz))%C <= b.
Proof.
  intros H1 H2 Ht JX JY JZ HL Dq N1 N2. assert (W1 := gridded_weighs _ _ _ _ _ H1). assert (W2 := gridded_weighs _ _ _ _ _ H2). destruct (gridded_sound _ _ _ _ _ H1) as (R1 & P1 & _). destruct (gridded_sound _ _ _ _ _ H2) as (R2 & P2 & _).
  assert (Hc := weighs_pair D1 D2 r1 r2 M1 M2 R1 R2 W1 W2). assert (HX := vnorm_ge0 (x, y, z)).
  destruct (q2Q_Ok qs t ltac:(lia) ltac:(lra)) as (Q & E & DQ).
  destruct (multipole_force_grad q Q x y z BIG_G ltac:(lia) ltac:(lia) ltac:(lia)) as (fx & fy & fz & EF & _).
  exists Q, fx, fy, fz. split; [exact E|]. split; [exact EF|]. intros b.
  assert (G : forall i J, pair_integral D1 r1 D2 r2 (fun v w => pull (axis_e i) (vadd v (x, y, z)) (vadd w t)) J ->
    Cmod (match i with 0%nat => fx | 1%nat => fy | _ => fz end - RtoC (BIG_G * J))%C <= b).
  { intros i J HJ. destruct (force_form D1 D2 1 1 q qs Q t R1 R2 ltac:(lia) Dq ltac:(lra) (moments_density _ _ N1) (moments_density _ _ N2) E i x y z BIG_G fx fy fz ltac:(lia) EF) as (I & P & W).
    rewrite W, !Rmult_1_r. replace b with (Rabs BIG_G * (M1 * M2) * force_tail (Z.to_nat (deg q)) (r1 + vnorm (x, y, z) + r2) (vnorm t)) by (unfold b, truncation; rewrite (Rabs_pos_eq _ G_pos); ring).
    apply scaled_gap. apply (Hc _ J _ I _ (force_tail_nonneg (Z.to_nat (deg q)) (r1 + vnorm (x, y, z) + r2) (vnorm t) ltac:(split; lra)) HJ P). intros v w Hv Hw.
    assert (T := vnorm_triangle v (x, y, z)). assert (V := vnorm_ge0 (vadd v (x, y, z))). assert (U := vnorm_ge0 w).
    eapply Rle_trans; [apply (den_rate (deg q) (axis_e i) (vadd v (x, y, z)) w t); [lia|lra]|]. rewrite axis_norm, Rmult_1_l. apply force_tail_mono; lra. }
  split; [exact (G 0%nat Fx JX)|split; [exact (G 1%nat Fy JY)|exact (G 2%nat Fz JZ)]].
Qed.
Lemma grid_multipole_torque pts D1 r1 M1 d1 qts D2 r2 M2 d2 t phi q qs T : gridded pts D1 r1 M1 d1 -> gridded qts D2 r2 M2 d2 -> r1 + r2 < vnorm t ->
  pair_integral D1 r1 D2 r2 (fun v w => twist (zrot phi v) (vadd w t)) T ->
  (1 <= deg q)%Z -> deg qs = deg q -> moments_of q D1 -> moments_of qs D2 ->
  exists Q nlm nc ns n, translate_q2Q qs t = Ok Q /\ torque_lm q Q BIG_G = Ok (nlm, nc, ns) /\ torques_at_angle nc ns phi false = Ok n /\
    Rabs (n - BIG_G * T) <= r1 * truncation (deg q) M1 M2 (r1 + r2) (vnorm t).
Proof.
  intros H1 H2 Ht HJ HL Dq N1 N2. assert (W1 := gridded_weighs _ _ _ _ _ H1). assert (W2 := gridded_weighs _ _ _ _ _ H2). destruct (gridded_sound _ _ _ _ _ H1) as (R1 & P1 & _). destruct (gridded_sound _ _ _ _ _ H2) as (R2 & P2 & _).
  assert (Hc := weighs_pair D1 D2 r1 r2 M1 M2 R1 R2 W1 W2).
  destruct (q2Q_Ok qs t ltac:(lia) ltac:(lra)) as (Q & E & DQ). destruct (torque_lm_ok q Q BIG_G ltac:(lia) ltac:(lia)) as (nlm & nc & ns & En & _).
  assert (RQ : reality Q) by (eapply q2Q_symm; [|exact (moments_reality _ _ R2 N2)|exact E]; lia).
  destruct (torque_at q Q BIG_G nlm nc ns phi ltac:(lia) ltac:(lia) (moments_reality _ _ R1 N1) (proj2 N1) RQ En) as (n & Et & W).
  exists Q, nlm, nc, ns, n. split; [exact E|]. split; [exact En|]. split; [exact Et|].
  destruct (torque_form D1 D2 1 1 q qs Q t R1 R2 ltac:(lia) Dq ltac:(lra) (moments_density _ _ N1) (moments_density _ _ N2) E phi BIG_G ltac:(lia)) as (I & P & W3).
  rewrite W3, !Rmult_1_r in W. rewrite <- Cmod_R, RtoC_minus, W.
  replace (r1 * truncation (deg q) M1 M2 (r1 + r2) (vnorm t)) with (Rabs BIG_G * (M1 * M2) * (r1 * force_tail (Z.to_nat (deg q)) (r1 + r2) (vnorm t))) by (unfold truncation; rewrite (Rabs_pos_eq _ G_pos); ring).
  apply scaled_gap. assert (TN := force_tail_nonneg (Z.to_nat (deg q)) (r1 + r2) (vnorm t) ltac:(split; lra)).
  apply (Hc _ T _ I (r1 * force_tail (Z.to_nat (deg q)) (r1 + r2) (vnorm t)) (Rmult_le_pos _ _ P1 TN) HJ P). intros v w Hv Hw.
  assert (V := vnorm_ge0 v). assert (U := vnorm_ge0 w). assert (Hz := vnorm_zrot phi v). unfold twist, pull. rewrite zspin_cross.
  eapply Rle_trans; [apply (den_rate (deg q) (zspin phi v) (zrot phi v) w t); [lia|lra]|]. rewrite Hz.
  apply Rmult_le_compat; [apply vnorm_ge0|apply force_tail_nonneg; split; lra| |apply force_tail_mono; lra].
  eapply Rle_trans; [apply turn_speed|exact Hv].
Qed.

(* ---- C80: exact arithmetic ---- *)
(* the force on the first body, moved by (x, y, z), of the second one, moved by t *)
Theorem C80_force : forall pts D1 r1 M1 d1 qts D2 r2 M2 d2 x y z t gap q qs, gridded pts D1 r1 M1 d1 -> gridded qts D2 r2 M2 d2 ->
  0 < r1 -> 0 < gap -> r1 + vnorm (x, y, z) + r2 + gap <= vnorm t ->
  (1 <= deg q)%Z -> deg qs = deg q -> moments_of q D1 -> moments_of qs D2 ->
  exists Q fx fy fz f g, translate_q2Q qs t = Ok Q /\ multipole_force (deg q) q Q x y z BIG_G = Ok (fx, fy, fz) /\
    point_matrix_gravity (translate_point_array (Rows pts) (x, y, z)) (translate_point_array (Rows qts) t) = Ok (f, g) /\
    let b := truncation (deg q) M1 M2 (r1 + vnorm (x, y, z) + r2) (vnorm t) + fineness M1 d1 M2 d2 gap in
    Cmod (fx - RtoC (co AX f))%C <= b /\ Cmod (fy - RtoC (co AY f))%C <= b /\ Cmod (fz - RtoC (co AZ f))%C <= b.
Proof.
  intros pts D1 r1 M1 d1 qts D2 r2 M2 d2 x y z t gap q qs H1 H2 Hr Hg Ht HL Dq N1 N2. assert (HX := vnorm_ge0 (x, y, z)).
  assert (H1' : gridded (rows (translate_point_array (Rows pts) (x, y, z))) (shifted (x, y, z) D1) (r1 + vnorm (x, y, z)) M1 d1) by (eapply f_shifted; [exact H1|reflexivity]).
  destruct (C78_gravity _ _ _ _ _ _ _ _ _ _ t gap H1' H2 ltac:(lra) Hg ltac:(lra)) as (F & T & f & g & (IF & _) & EP & CF & _).
  assert (RD := proj1 (gridded_sound _ _ _ _ _ H1)).
  assert (J : forall i, pair_integral D1 r1 D2 r2 (fun v w => pull (along i) (vadd v (x, y, z)) (vadd w t)) (co i F)).
  { intros i. apply (pair_integral_carried (fun v => vadd v (x, y, z)) D1 r1 (r1 + vnorm (x, y, z)) D2 r2 (fun v w => pull (along i) v (vadd w t)) (co i F) RD); [|exact (IF i)]. intros v Hv. assert (Q := vnorm_triangle v (x, y, z)). lra. }
  destruct (grid_multipole_force _ _ _ _ _ _ _ _ _ _ t x y z q qs (co AX F) (co AY F) (co AZ F) H1 H2 ltac:(lra) (J AX) (J AY) (J AZ) HL Dq N1 N2) as (Q & fx & fy & fz & EQ & EF & BX & BY & BZ).
  exists Q, fx, fy, fz, f, g. split; [exact EQ|]. split; [exact EF|]. split; [exact EP|].
  assert (S : forall i c, Cmod (c - RtoC (BIG_G * co i F))%C <= truncation (deg q) M1 M2 (r1 + vnorm (x, y, z) + r2) (vnorm t) ->
    Cmod (c - RtoC (co i f))%C <= truncation (deg q) M1 M2 (r1 + vnorm (x, y, z) + r2) (vnorm t) + fineness M1 d1 M2 d2 gap).
  { intros i c B. replace (c - RtoC (co i f))%C with ((c - RtoC (BIG_G * co i F)) + RtoC (BIG_G * co i F - co i f))%C by (rewrite RtoC_minus; ring).
    eapply Rle_trans; [apply Cmod_triangle|]. apply Rplus_le_compat; [exact B|]. rewrite Cmod_R, Rabs_minus_sym. specialize (CF i). replace (co i (vscal BIG_G F)) with (BIG_G * co i F) in CF by (destruct F as [[a b] c'], i; reflexivity). exact CF. }
  cbv zeta. split; [|split]; now apply S.
Qed.
(* the torque about the vertical axis on the first body, turned by phi, of the second one, moved by t *)
Theorem C80_torque : forall pts D1 r1 M1 d1 qts D2 r2 M2 d2 phi t gap q qs, gridded pts D1 r1 M1 d1 -> gridded qts D2 r2 M2 d2 ->
  0 < r1 -> 0 < gap -> r1 + r2 + gap <= vnorm t ->
  (1 <= deg q)%Z -> deg qs = deg q -> moments_of q D1 -> moments_of qs D2 ->
  exists Q nlm nc ns n p' f g, translate_q2Q qs t = Ok Q /\ torque_lm q Q BIG_G = Ok (nlm, nc, ns) /\ torques_at_angle nc ns phi false = Ok n /\
    rotate_point_array (Rows pts) phi (0, 0, 1) = Ok p' /\ point_matrix_gravity p' (translate_point_array (Rows qts) t) = Ok (f, g) /\
    Rabs (n - co AZ g) <= r1 * truncation (deg q) M1 M2 (r1 + r2) (vnorm t) + fineness_torque r1 M1 d1 M2 d2 gap.
Proof.
  intros pts D1 r1 M1 d1 qts D2 r2 M2 d2 phi t gap q qs H1 H2 Hr Hg Ht HL Dq N1 N2.
  assert (NZ : (0, 0, 1) <> v0) by (intros E; injection E; lra).
  assert (RZ : is_rotation (0, 0, 1) phi (zrot phi)).
  { assert (A := axis_rot_is_rotation (0, 0, 1) phi NZ). assert (E : axis_rot (0, 0, 1) phi = zrot phi) by (apply FunctionalExtensionality.functional_extensionality; intros [[a b] c]; apply axis_rot_z). now rewrite <- E. }
  assert (H1' : gridded (Props_Torque.turned phi pts) (carried (zrot phi) D1) r1 M1 d1) by (eapply f_rotated; [exact H1|exact NZ|exact RZ|apply rotate_turned]).
  destruct (C78_gravity _ _ _ _ _ _ _ _ _ _ t gap H1' H2 Hr Hg Ht) as (F & T & f & g & (_ & IT) & EP & _ & CT).
  assert (RD := proj1 (gridded_sound _ _ _ _ _ H1)).
  assert (J : pair_integral D1 r1 D2 r2 (fun v w => twist (zrot phi v) (vadd w t)) (co AZ T)).
  { apply (pair_integral_carried (zrot phi) D1 r1 r1 D2 r2 (fun v w => twist v (vadd w t)) (co AZ T) RD); [|exact (IT AZ)]. intros v Hv. now rewrite vnorm_zrot. }
  destruct (grid_multipole_torque _ _ _ _ _ _ _ _ _ _ t phi q qs (co AZ T) H1 H2 ltac:(lra) J HL Dq N1 N2) as (Q & nlm & nc & ns & n & EQ & EN & ET & B).
  exists Q, nlm, nc, ns, n, (Rows (Props_Torque.turned phi pts)), f, g. split; [exact EQ|]. split; [exact EN|]. split; [exact ET|]. split; [apply rotate_turned|]. split; [exact EP|].
  replace (n - co AZ g) with ((n - BIG_G * co AZ T) + (BIG_G * co AZ T - co AZ g)) by ring. eapply Rle_trans; [apply Rabs_triang|]. apply Rplus_le_compat; [exact B|].
  rewrite Rabs_minus_sym. specialize (CT AZ). replace (co AZ (vscal BIG_G T)) with (BIG_G * co AZ T) in CT by (destruct T as [[a b] c']; reflexivity). exact CT.
Qed.

(* ---- C80: what the machine returns ---- *)
Lemma shifted_sizes pts D r M d s : gridded pts D r M d -> lsr (fun p => Rabs (pm p)) (rows (translate_point_array (Rows pts) s)) <= M /\ forall p, In p (rows (translate_point_array (Rows pts) s)) -> vnorm (pp p) <= r + vnorm s.
Proof.
  intros H. assert (H' : gridded (rows (translate_point_array (Rows pts) s)) (shifted s D) (r + vnorm s) M d) by (eapply f_shifted; [exact H|reflexivity]).
  destruct (gridded_sound _ _ _ _ _ H') as (_ & _ & _ & _ & A & B & _). now split.
Qed.
(* masses that add up to M1 and M2, all at least gap apart *)
Lemma apart_by_gap (l1 l2 : list pt) r1 t r2 gap : (forall p, In p l1 -> vnorm (pp p) <= r1) -> (forall q, In q l2 -> vnorm (pp q) <= r2) -> r1 + r2 + gap <= vnorm t ->
  separated gap l1 (rows (translate_point_array (Rows l2) t)).
Proof.
  intros H1 H2 Ht p q Hp Hq. cbn [translate_point_array rows] in Hq. apply in_map_iff in Hq. destruct Hq as (q0 & <- & Hq). cbn [translate_pt pp].
  assert (A := H1 p Hp). assert (B := H2 q0 Hq). assert (T1 := vnorm_triangle (vadd (vsub (vadd (pp q0) t) (pp p)) (pp p)) (vopp (pp q0))).
  assert (T2 := vnorm_triangle (vsub (vadd (pp q0) t) (pp p)) (pp p)). rewrite vnorm_opp in T1.
  replace (vadd (vadd (vsub (vadd (pp q0) t) (pp p)) (pp p)) (vopp (pp q0))) with t in T1; [lra|].
  destruct (pp q0) as [[a b] c], (pp p) as [[a' b'] c'], t as [[a'' b''] c'']. unfold vadd, vsub, vopp. apply v3; ring.
Qed.
Lemma lsr_mono {X} (f g : X -> R) l : (forall x, In x l -> f x <= g x) -> lsr f l <= lsr g l.
Proof. intros H. unfold lsr. induction l as [|x l IH]; cbn [fold_right]; [lra|]. assert (A := H x ltac:(now left)). assert (B := IH ltac:(intros; apply H; now right)). lra. Qed.
Lemma total_pull_most l1 l2 M1 M2 gap : 0 < gap -> separated gap l1 l2 -> lsr (fun p => Rabs (pm p)) l1 <= M1 -> lsr (fun q => Rabs (pm q)) l2 <= M2 -> total_pull l1 l2 <= most M1 M2 gap.
Proof.
  intros Hg HS E1 E2. assert (P2 : 0 <= lsr (fun q => Rabs (pm q)) l2) by (apply lsr_ge0; intros; apply Rabs_pos).
  assert (P1 : 0 <= lsr (fun q => Rabs (pm q)) l1) by (apply lsr_ge0; intros; apply Rabs_pos). assert (HG := G_pos). assert (I2 : 0 < / gap ^ 2) by (apply Rinv_0_lt_compat, pow_lt, Hg).
  apply Rle_trans with (BIG_G * lsr (fun p => Rabs (pm p)) l1 * lsr (fun q => Rabs (pm q)) l2 / gap ^ 2).
  - replace (BIG_G * lsr (fun p => Rabs (pm p)) l1 * lsr (fun q => Rabs (pm q)) l2 / gap ^ 2) with (lsr (fun p => lsr (fun q => BIG_G * Rabs (pm p) * Rabs (pm q) / gap ^ 2) l2) l1).
    2:{ clear. transitivity (lsr (fun p => (BIG_G * lsr (fun q => Rabs (pm q)) l2 / gap ^ 2) * Rabs (pm p)) l1); [|rewrite lsr_scal; unfold Rdiv; ring]. apply lsr_ext. intros p _.
        transitivity (lsr (fun q => (BIG_G * Rabs (pm p) / gap ^ 2) * Rabs (pm q)) l2); [apply lsr_ext; intros; unfold Rdiv; ring|rewrite lsr_scal; unfold Rdiv; ring]. }
    unfold total_pull. apply lsr_mono. intros p Hp. apply lsr_mono. intros q Hq. assert (S := HS p q Hp Hq). apply Rmult_le_compat_l; [apply Rmult_le_pos; [apply Rmult_le_pos; [exact HG|apply Rabs_pos]|apply Rabs_pos]|].
    apply Rinv_le_contravar; [now apply pow_lt|]. apply pow_incr. lra.
  - unfold most, Rdiv. apply Rmult_le_compat_r; [lra|]. apply Rmult_le_compat; [now apply Rmult_le_pos|exact P2|now apply Rmult_le_compat_l|exact E2].
Qed.
(* points moved in rounded arithmetic (C75), attracted in rounded arithmetic (C64, C76): n and m points, gap apart *)
Definition rounding (u : R) (n : nat) (moved gap M1 M2 : R) : R := ((1 + after u n) * (1 + 22 * moved / gap) - 1) * most M1 M2 gap.
Definition rounding_torque (u : R) (n : nat) (moved gap M1 M2 reach moved1 : R) : R := 2 * ((1 + after u n) * (1 + 22 * moved / gap) * (reach + moved1) - reach) * most M1 M2 gap.
Theorem C80_force_in_floats : forall A u fsin pts D1 r1 M1 d1 qts D2 r2 M2 d2 x y z t gap q qs a b f tau, accurate u A -> accurate_sin u fsin ->
  gridded pts D1 r1 M1 d1 -> gridded qts D2 r2 M2 d2 -> 0 < r1 -> 0 < gap -> r1 + vnorm (x, y, z) + r2 + gap <= vnorm t ->
  (1 <= deg q)%Z -> deg qs = deg q -> moments_of q D1 -> moments_of qs D2 ->
  fl_moves A fsin [MShift (x, y, z)] (Rows pts) a -> fl_moves A fsin [MShift t] (Rows qts) b -> fl_point_matrix_gravity A a b f tau ->
  let moved := drift u [MShift (x, y, z)] r1 + drift u [MShift t] r2 in moved <= gap / 2 ->
  exists Q fx fy fz, translate_q2Q qs t = Ok Q /\ multipole_force (deg q) q Q x y z BIG_G = Ok (fx, fy, fz) /\
    let e := truncation (deg q) M1 M2 (r1 + vnorm (x, y, z) + r2) (vnorm t) + fineness M1 d1 M2 d2 gap + rounding u (26 + length pts + length qts) moved gap M1 M2 in
    Cmod (fx - RtoC (co AX f))%C <= e /\ Cmod (fy - RtoC (co AY f))%C <= e /\ Cmod (fz - RtoC (co AZ f))%C <= e.
Proof.
  intros A u fsin pts D1 r1 M1 d1 qts D2 r2 M2 d2 x y z t gap q qs a b f tau HA HS H1 H2 Hr Hg Ht HL Dq N1 N2 FA FB FG moved Hm.
  destruct (C80_force _ _ _ _ _ _ _ _ _ _ x y z t gap q qs H1 H2 Hr Hg Ht HL Dq N1 N2) as (Q & fx & fy & fz & f0 & g0 & EQ & EF & EP & BX & BY & BZ).
  destruct (gridded_sound _ _ _ _ _ H1) as (_ & _ & _ & _ & _ & I1 & _). destruct (gridded_sound _ _ _ _ _ H2) as (_ & P2 & _ & _ & _ & I2 & _).
  destruct (shifted_sizes _ _ _ _ _ (x, y, z) H1) as (S1 & S1'). destruct (shifted_sizes _ _ _ _ _ t H2) as (S2 & _).
  assert (Sep : separated gap (rows (translate_point_array (Rows pts) (x, y, z))) (rows (translate_point_array (Rows qts) t))) by (apply (apart_by_gap _ qts (r1 + vnorm (x, y, z)) t r2 gap S1' I2); lra).
  destruct (C76_moved_gravity A u fsin [MShift (x, y, z)] [MShift t] (Rows pts) (Rows qts) a b _ _ f tau r1 r2 gap HA HS ltac:(lra) I1 P2 I2 FA FB FG eq_refl eq_refl Hg Sep Hm) as (F & T & E & B).
  rewrite EP in E. injection E as <- <-. exists Q, fx, fy, fz. split; [exact EQ|]. split; [exact EF|]. cbv zeta.
  assert (TP := total_pull_most _ _ _ _ _ Hg Sep S1 S2). cbn [rows] in B. fold moved in B.
  assert (Dp : 0 <= moved) by (apply Rplus_le_le_0_compat; apply drift_ge0; try lra; exact (proj1 HA)).
  assert (K1 : 0 <= after u (26 + length pts + length qts)) by (assert (G := ihk_ge1 A u HA (26 + length pts + length qts)); unfold after; lra).
  assert (K2 : 0 <= 22 * moved / gap) by (unfold Rdiv; apply Rmult_le_pos; [lra|left; now apply Rinv_0_lt_compat]).
  assert (S : forall i, Rabs (co i f0 - co i f) <= rounding u (26 + length pts + length qts) moved gap M1 M2).
  { intros i. rewrite Rabs_minus_sym. destruct (B i) as [B1 _]. apply Rle_trans with (1 := B1). unfold rounding. apply Rmult_le_compat_l; [|exact TP]. nra. }
  assert (S' : forall i c, Cmod (c - RtoC (co i f0))%C <= truncation (deg q) M1 M2 (r1 + vnorm (x, y, z) + r2) (vnorm t) + fineness M1 d1 M2 d2 gap ->
    Cmod (c - RtoC (co i f))%C <= truncation (deg q) M1 M2 (r1 + vnorm (x, y, z) + r2) (vnorm t) + fineness M1 d1 M2 d2 gap + rounding u (26 + length pts + length qts) moved gap M1 M2).
  { intros i c C. replace (c - RtoC (co i f))%C with ((c - RtoC (co i f0)) + RtoC (co i f0 - co i f))%C by (rewrite RtoC_minus; ring).
    eapply Rle_trans; [apply Cmod_triangle|]. apply Rplus_le_compat; [exact C|]. rewrite Cmod_R. apply S. }
  split; [|split]; now apply S'.
Qed.
Theorem C80_torque_in_floats : forall A u fsin pts D1 r1 M1 d1 qts D2 r2 M2 d2 phi t gap q qs a b f tau, accurate u A -> accurate_sin u fsin ->
  gridded pts D1 r1 M1 d1 -> gridded qts D2 r2 M2 d2 -> 0 < r1 -> 0 < gap -> r1 + r2 + gap <= vnorm t ->
  (1 <= deg q)%Z -> deg qs = deg q -> moments_of q D1 -> moments_of qs D2 ->
  fl_moves A fsin [MTurn phi (0, 0, 1)] (Rows pts) a -> fl_moves A fsin [MShift t] (Rows qts) b -> fl_point_matrix_gravity A a b f tau ->
  let moved1 := drift u [MTurn phi (0, 0, 1)] r1 in let moved := moved1 + drift u [MShift t] r2 in moved <= gap / 2 ->
  exists Q nlm nc ns n, translate_q2Q qs t = Ok Q /\ torque_lm q Q BIG_G = Ok (nlm, nc, ns) /\ torques_at_angle nc ns phi false = Ok n /\
    Rabs (n - co AZ tau) <= r1 * truncation (deg q) M1 M2 (r1 + r2) (vnorm t) + fineness_torque r1 M1 d1 M2 d2 gap +
      rounding_torque u (28 + length pts + length qts) moved gap M1 M2 r1 moved1.
Proof.
  intros A u fsin pts D1 r1 M1 d1 qts D2 r2 M2 d2 phi t gap q qs a b f tau HA HS H1 H2 Hr Hg Ht HL Dq N1 N2 FA FB FG moved1 moved Hm.
  destruct (C80_torque _ _ _ _ _ _ _ _ _ _ phi t gap q qs H1 H2 Hr Hg Ht HL Dq N1 N2) as (Q & nlm & nc & ns & n & p' & f0 & g0 & EQ & EN & ET & ER & EP & BT).
  assert (ER' := ER). rewrite rotate_turned in ER'. injection ER' as <-.
  destruct (gridded_sound _ _ _ _ _ H1) as (_ & _ & _ & _ & J1 & I1 & _). destruct (gridded_sound _ _ _ _ _ H2) as (_ & P2 & _ & _ & _ & I2 & _). destruct (shifted_sizes _ _ _ _ _ t H2) as (S2 & _).
  assert (I1' : forall p, In p (Props_Torque.turned phi pts) -> vnorm (pp p) <= r1).
  { intros p Hp. unfold Props_Torque.turned in Hp. apply in_map_iff in Hp. destruct Hp as (p0 & <- & Hp). cbn [pp]. rewrite vnorm_zrot. now apply I1. }
  assert (S1 : lsr (fun p => Rabs (pm p)) (Props_Torque.turned phi pts) <= M1). { unfold Props_Torque.turned. rewrite lsr_map. exact J1. }
  assert (Sep : separated gap (rows (Rows (Props_Torque.turned phi pts))) (rows (translate_point_array (Rows qts) t))) by (apply (apart_by_gap _ qts r1 t r2 gap I1' I2); lra).
  destruct (C76_moved_gravity A u fsin [MTurn phi (0, 0, 1)] [MShift t] (Rows pts) (Rows qts) a b (Rows (Props_Torque.turned phi pts)) (translate_point_array (Rows qts) t) f tau r1 r2 gap HA HS ltac:(lra) I1 P2 I2 FA FB FG) as (F & T & E & B).
  { cbn [exact_moves exact_move]. rewrite ER. reflexivity. } { reflexivity. } { exact Hg. } { exact Sep. } { exact Hm. }
  rewrite EP in E. injection E as <- <-. exists Q, nlm, nc, ns, n. split; [exact EQ|]. split; [exact EN|]. split; [exact ET|].
  assert (TP := total_pull_most _ _ _ _ _ Hg Sep S1 S2). cbn [rows way] in B. rewrite Rplus_0_r in B. fold moved1 in B. fold moved in B.
  assert (D1p : 0 <= moved1) by (apply drift_ge0; try lra; exact (proj1 HA)). assert (D2p : 0 <= drift u [MShift t] r2) by (apply drift_ge0; try lra; exact (proj1 HA)). assert (Dp : 0 <= moved) by (unfold moved; lra).
  assert (K1 : 0 <= after u (28 + length pts + length qts)) by (assert (G := ihk_ge1 A u HA (28 + length pts + length qts)); unfold after; lra).
  assert (K2 : 0 <= 22 * moved / gap) by (unfold Rdiv; apply Rmult_le_pos; [lra|left; now apply Rinv_0_lt_compat]).
  replace (n - co AZ tau) with ((n - co AZ g0) + (co AZ g0 - co AZ tau)) by ring. eapply Rle_trans; [apply Rabs_triang|]. apply Rplus_le_compat; [exact BT|].
  rewrite Rabs_minus_sym. destruct (B AZ) as [_ B2]. apply Rle_trans with (1 := B2). unfold rounding_torque. apply Rmult_le_compat_l; [|exact TP].
  set (k1 := after u (28 + length pts + length qts)) in *. set (k2 := 22 * moved / gap) in *. clear - K1 K2 D1p Hr. clearbody k1 k2 moved1. assert (1 <= (1 + k1) * (1 + k2)) by nra. set (X := (1 + k1) * (1 + k2)) in *. clearbody X. assert (0 <= (X - 1) * (r1 + moved1)) by (apply Rmult_le_pos; lra). lra.
Qed.

(* ---- C80: the machine against the integrals over the bodies ---- *)
Theorem C80_gravity_in_floats : forall A u fsin pts D1 r1 M1 d1 qts D2 r2 M2 d2 t gap b f tau, accurate u A -> accurate_sin u fsin ->
  gridded pts D1 r1 M1 d1 -> gridded qts D2 r2 M2 d2 -> 0 < r1 -> 0 < gap -> r1 + r2 + gap <= vnorm t ->
  fl_moves A fsin [MShift t] (Rows qts) b -> fl_point_matrix_gravity A (Rows pts) b f tau -> let moved := drift u [MShift t] r2 in moved <= gap / 2 ->
  exists F T, interaction pull D1 r1 D2 r2 t F T /\
    vclose (fineness M1 d1 M2 d2 gap + rounding u (26 + length pts + length qts) moved gap M1 M2) f (vscal BIG_G F) /\
    vclose (fineness_torque r1 M1 d1 M2 d2 gap + rounding_torque u (28 + length pts + length qts) moved gap M1 M2 r1 0) tau (vscal BIG_G T).
Proof.
  intros A u fsin pts D1 r1 M1 d1 qts D2 r2 M2 d2 t gap b f tau HA HS H1 H2 Hr Hg Ht FB FG moved Hm.
  destruct (C78_gravity _ _ _ _ _ _ _ _ _ _ t gap H1 H2 Hr Hg Ht) as (F & T & f0 & g0 & IF & EP & CF & CT). exists F, T. split; [exact IF|].
  destruct (gridded_sound _ _ _ _ _ H1) as (_ & _ & _ & _ & S1 & I1 & _). destruct (gridded_sound _ _ _ _ _ H2) as (_ & P2 & _ & _ & _ & I2 & _). destruct (shifted_sizes _ _ _ _ _ t H2) as (S2 & _).
  assert (Sep : separated gap (rows (Rows pts)) (rows (translate_point_array (Rows qts) t))) by (apply (apart_by_gap _ qts r1 t r2 gap I1 I2); lra).
  assert (Dn : drift u [] r1 = 0) by (unfold drift; cbn [length pow]; ring). assert (Dp : 0 <= moved) by (apply drift_ge0; try lra; exact (proj1 HA)).
  destruct (C76_moved_gravity A u fsin [] [MShift t] (Rows pts) (Rows qts) (Rows pts) b (Rows pts) (translate_point_array (Rows qts) t) f tau r1 r2 gap HA HS ltac:(lra) I1 P2 I2 (flm_nil A fsin _) FB FG eq_refl eq_refl Hg Sep) as (F' & T' & E & B).
  { rewrite Dn, Rplus_0_l. exact Hm. }
  rewrite EP in E. injection E as <- <-. assert (TP := total_pull_most _ _ _ _ _ Hg Sep S1 S2). cbn [rows way] in B. rewrite Dn, Rplus_0_l in B. fold moved in B.
  assert (K1 : forall n, 0 <= after u n) by (intros n; assert (G := ihk_ge1 A u HA n); unfold after; lra).
  assert (K2 : 0 <= 22 * moved / gap) by (unfold Rdiv; apply Rmult_le_pos; [lra|left; now apply Rinv_0_lt_compat]).
  split; intros i; destruct (B i) as [B1 B2]; replace (r1 + 0 + 0) with (r1 + 0) in B2 by ring; rewrite (Rplus_0_r r1) in B2; [specialize (CF i)|specialize (CT i)].
  - replace (co i f - co i (vscal BIG_G F)) with ((co i f0 - co i (vscal BIG_G F)) + (co i f - co i f0)) by ring. eapply Rle_trans; [apply Rabs_triang|]. apply Rplus_le_compat; [exact CF|].
    apply Rle_trans with (1 := B1). unfold rounding. apply Rmult_le_compat_l; [|exact TP]. specialize (K1 (26 + length pts + length qts)%nat). nra.
  - replace (co i tau - co i (vscal BIG_G T)) with ((co i g0 - co i (vscal BIG_G T)) + (co i tau - co i g0)) by ring. eapply Rle_trans; [apply Rabs_triang|]. apply Rplus_le_compat; [exact CT|].
    apply Rle_trans with (1 := B2). unfold rounding_torque. rewrite (Rplus_0_r r1). apply Rmult_le_compat_l; [|exact TP]. specialize (K1 (28 + length pts + length qts)%nat). clear - K1 K2 Hr. set (k1 := after u (28 + length pts + length qts)) in *. set (k2 := 22 * moved / gap) in *. clearbody k1 k2.
    assert (1 <= (1 + k1) * (1 + k2)) by nra. set (X := (1 + k1) * (1 + k2)) in *. clearbody X. assert (0 <= (X - 1) * r1) by (apply Rmult_le_pos; lra). lra.
Qed.
(* the Yukawa force: a pair attracts no more than Newton's law says, times alpha *)
Lemma decay_le x : 0 <= x -> 0 <= (1 + x) * exp (- x) <= 1.
Proof.
  intros Hx. assert (P := exp_pos (- x)). split; [apply Rmult_le_pos; lra|]. assert (G := exp_ineq1_le x). assert (E : exp x * exp (- x) = 1) by (rewrite <- exp_plus, Rplus_opp_r; apply exp_0). nra.
Qed.
Lemma vnorm_vscal k v : vnorm (vscal k v) = Rabs k * vnorm v.
Proof.
  destruct v as [[x y] z]. unfold vscal, vnorm. replace ((k * x) ^ 2 + (k * y) ^ 2 + (k * z) ^ 2) with (k ^ 2 * (x ^ 2 + y ^ 2 + z ^ 2)) by ring.
  rewrite sqrt_mult_alt by apply pow2_ge_0. f_equal. rewrite <- (sqrt_Rsqr_abs k). f_equal. unfold Rsqr. ring.
Qed.
Lemma yuk_pair alpha lmbd p q i : 0 < lmbd -> vnorm (vsub (pp q) (pp p)) <> 0 -> Rabs (co i (yuk_attraction alpha lmbd p q)) <= Rabs alpha * (BIG_G * Rabs (pm p) * Rabs (pm q) / vnorm (vsub (pp q) (pp p)) ^ 2).
Proof.
  intros HL N. assert (G := vnorm_ge0 (vsub (pp q) (pp p))). apply Rle_trans with (1 := co_le i _). unfold yuk_attraction. cbv zeta. rewrite vnorm_vscal. set (r := vnorm (vsub (pp q) (pp p))) in *. clearbody r.
  assert (Pr : 0 < r) by lra. assert (X : 0 <= r / lmbd) by (unfold Rdiv; apply Rmult_le_pos; [lra|left; now apply Rinv_0_lt_compat]). assert (D := decay_le _ X). replace (- (r / lmbd)) with (- r / lmbd) in D by (field; lra).
  set (w := (1 + r / lmbd) * exp (- r / lmbd)) in *. replace (alpha * BIG_G * pm p * pm q * (1 + r / lmbd) * exp (- r / lmbd) / r ^ 3) with (alpha * BIG_G * pm p * pm q * (w * / r ^ 3)) by (unfold w, Rdiv; ring). clearbody w.
  assert (I3 : 0 < / r ^ 3) by now apply Rinv_0_lt_compat, pow_lt. rewrite !Rabs_mult, (Rabs_pos_eq BIG_G G_pos), (Rabs_pos_eq w) by lra. rewrite (Rabs_pos_eq (/ r ^ 3)) by lra.
  replace (Rabs alpha * (BIG_G * Rabs (pm p) * Rabs (pm q) / r ^ 2)) with (Rabs alpha * BIG_G * Rabs (pm p) * Rabs (pm q) * (1 * / r ^ 3) * r) by (field; lra).
  apply Rmult_le_compat_r; [lra|]. apply Rmult_le_compat_l; [repeat first [apply Rabs_pos|exact G_pos|apply Rmult_le_pos]|]. apply Rmult_le_compat_r; lra.
Qed.
Theorem C80_yukawa_in_floats : forall A u ex alpha lmbd pts D1 r1 M1 d1 qts D2 r2 M2 d2 t gap f tau, accurate u A -> accurate_exp u ex -> 0 < lmbd ->
  gridded pts D1 r1 M1 d1 -> gridded qts D2 r2 M2 d2 -> 0 < r1 -> 0 < gap -> r1 + r2 + gap <= vnorm t ->
  fl_point_matrix_yukawa A ex alpha lmbd (Rows pts) (translate_point_array (Rows qts) t) f tau ->
  exists F T, interaction (yukawa_pull alpha lmbd) D1 r1 D2 r2 t F T /\
    vclose (Rabs alpha * (fineness M1 d1 M2 d2 gap + after_decay u ((r1 + r2 + vnorm t) / lmbd) (33 + length pts + length qts) * most M1 M2 gap)) f (vscal BIG_G F).
Proof.
  intros A u ex alpha lmbd pts D1 r1 M1 d1 qts D2 r2 M2 d2 t gap f tau HA HX HL H1 H2 Hr Hg Ht HF.
  destruct (C78_yukawa _ _ _ _ _ _ _ _ _ _ t gap alpha lmbd H1 H2 Hr Hg Ht HL) as (F & T & f0 & g0 & IF & EP & CF & _). exists F, T. split; [exact IF|].
  destruct (gridded_sound _ _ _ _ _ H1) as (_ & _ & _ & _ & S1 & I1 & _). destruct (gridded_sound _ _ _ _ _ H2) as (_ & P2 & _ & _ & _ & I2 & _). destruct (shifted_sizes _ _ _ _ _ t H2) as (S2 & I2').
  assert (Sep : separated gap (rows (Rows pts)) (rows (translate_point_array (Rows qts) t))) by (apply (apart_by_gap _ qts r1 t r2 gap I1 I2); lra).
  assert (Far : within_range (r1 + r2 + vnorm t) (rows (Rows pts)) (rows (translate_point_array (Rows qts) t))).
  { intros p q Hp Hq. assert (A1 := I1 p Hp). assert (A2 := I2' q Hq). assert (A3 := vnorm_triangle (pp q) (vopp (pp p))). rewrite vnorm_opp in A3. replace (vadd (pp q) (vopp (pp p))) with (vsub (pp q) (pp p)) in A3; [lra|]. destruct (pp q) as [[a b] c], (pp p) as [[a' b'] c']. unfold vadd, vsub, vopp. apply v3; ring. }
  assert (VT := vnorm_ge0 t). destruct (C79_rounding A u ex alpha lmbd (r1 + r2 + vnorm t) _ _ f tau HA HX HL ltac:(lra) Far HF) as (F' & T' & E & B).
  rewrite EP in E. injection E as <- <-. assert (TP := total_pull_most _ _ _ _ _ Hg Sep S1 S2).
  intros i. destruct (B i) as [B1 _]. specialize (CF i). rewrite Rmult_plus_distr_l.
  replace (co i f - co i (vscal BIG_G F)) with ((co i f0 - co i (vscal BIG_G F)) + (co i f - co i f0)) by ring. eapply Rle_trans; [apply Rabs_triang|]. apply Rplus_le_compat.
  - apply Rle_trans with (1 := CF). apply Req_le. unfold fineness. ring.
  - apply Rle_trans with (1 := B1). cbn [rows translate_point_array]. rewrite map_length.
    replace (Rabs alpha * (after_decay u ((r1 + r2 + vnorm t) / lmbd) (33 + length pts + length qts) * most M1 M2 gap)) with (after_decay u ((r1 + r2 + vnorm t) / lmbd) (33 + length pts + length qts) * (Rabs alpha * most M1 M2 gap)) by ring.
    apply Rmult_le_compat_l.
    + unfold after_decay. assert (K := KK_ge1 A u HA lmbd HL (r1 + r2 + vnorm t) ltac:(lra) (33 + length pts + length qts)). unfold KK, EE in K. lra.
    + apply Rle_trans with (Rabs alpha * total_pull (rows (Rows pts)) (rows (translate_point_array (Rows qts) t))); [|apply Rmult_le_compat_l; [apply Rabs_pos|exact TP]].
      unfold total_pull, yuk_force_size. rewrite <- lsr_scal. apply lsr_mono. intros p Hp. rewrite <- lsr_scal. apply lsr_mono. intros q Hq. apply yuk_pair; [exact HL|]. assert (S := Sep p q Hp Hq). lra.
Qed.
Print Assumptions C80_gravity_in_floats.
Print Assumptions C80_yukawa_in_floats.

(* ---- two bricks ---- *)
(* qlm.rect_prism and MultipoleLib against glibShapes.rectangle and glib: two bricks with cell edges at most h *)
Lemma brick_moments L mass x y z : (0 <= L)%Z -> 0 < x -> 0 < y -> 0 < z -> exists q, Qlm.rect_prism L mass z x y 0 = Ok q /\ deg q = L /\ moments_of q (of_mass mass (box z x y)).
Proof.
  intros HL Hx Hy Hz. destruct (Props_Qlm.C36_rect_prism L mass z x y 0 HL Hz Hx Hy) as (q & E & Dq & MB). exists q. split; [exact E|]. split; [exact Dq|].
  assert (RB := QlmProofs3.regular_box z x y).
  assert (TZ : forall f I, SolidSpec.turned_z 0 (box z x y) f I -> box z x y f I). { intros f I H. refine (reg_ext _ RB _ _ _ _ H). intros a b c. cbv beta. unfold zrot. rewrite cos_0, sin_0. f_equal; ring. }
  destruct MB as (V & HV & H1 & HM & HC). split; [|exact HC]. intros l m Hl Hm. destruct (HM l m Hl Hm) as (I & HI & EI). exists V, I. split; [exact HV|]. split; [now apply TZ|]. split; [now apply TZ|exact EI].
Qed.
Theorem C80_bricks : forall L m1 x1 y1 z1 n1 k1 r1 m2 x2 y2 z2 n2 k2 r2 x y z t gap h, (1 <= L)%Z ->
  0 < x1 -> 0 < y1 -> 0 < z1 -> (0 < n1)%nat -> (0 < k1)%nat -> 0 < r1 -> (x1 / 2) ^ 2 + (y1 / 2) ^ 2 + (z1 / 2) ^ 2 <= r1 ^ 2 ->
  0 < x2 -> 0 < y2 -> 0 < z2 -> (0 < n2)%nat -> (0 < k2)%nat -> 0 < r2 -> (x2 / 2) ^ 2 + (y2 / 2) ^ 2 + (z2 / 2) ^ 2 <= r2 ^ 2 ->
  x1 / INR n1 <= h -> y1 / INR n1 <= h -> z1 / INR k1 <= h -> x2 / INR n2 <= h -> y2 / INR n2 <= h -> z2 / INR k2 <= h ->
  0 < gap -> r1 + vnorm (x, y, z) + r2 + gap <= vnorm t ->
  exists q qs Q fx fy fz pts qts f g, Qlm.rect_prism L m1 z1 x1 y1 0 = Ok q /\ Qlm.rect_prism L m2 z2 x2 y2 0 = Ok qs /\ translate_q2Q qs t = Ok Q /\
    multipole_force L q Q x y z BIG_G = Ok (fx, fy, fz) /\
    g_rectangle m1 x1 y1 z1 n1 n1 k1 = Ok pts /\ g_rectangle m2 x2 y2 z2 n2 n2 k2 = Ok qts /\
    point_matrix_gravity (translate_point_array (Rows pts) (x, y, z)) (translate_point_array (Rows qts) t) = Ok (f, g) /\
    let b := BIG_G * Rabs m1 * Rabs m2 * (force_tail (Z.to_nat L) (r1 + vnorm (x, y, z) + r2) (vnorm t) + 3 * h / gap ^ 3) in
    Cmod (fx - RtoC (co AX f))%C <= b /\ Cmod (fy - RtoC (co AY f))%C <= b /\ Cmod (fz - RtoC (co AZ f))%C <= b.
Proof.
  intros L m1 x1 y1 z1 n1 k1 r1 m2 x2 y2 z2 n2 k2 r2 x y z t gap h HL X1 Y1 Z1 Nn1 K1 R1 B1 X2 Y2 Z2 Nn2 K2 R2 B2 E1 E2 E3 E4 E5 E6 Hg Ht.
  destruct (C40_rectangle_equal_counts m1 x1 y1 z1 n1 k1 X1 Y1 Z1 Nn1 K1) as (pts & EP & _). destruct (C40_rectangle_equal_counts m2 x2 y2 z2 n2 k2 X2 Y2 Z2 Nn2 K2) as (qts & EQ & _).
  assert (G1 := f_brick m1 x1 y1 z1 n1 k1 pts r1 X1 Y1 Z1 Nn1 K1 ltac:(lra) B1 EP). assert (G2 := f_brick m2 x2 y2 z2 n2 k2 qts r2 X2 Y2 Z2 Nn2 K2 ltac:(lra) B2 EQ).
  destruct (brick_moments L m1 x1 y1 z1 ltac:(lia) X1 Y1 Z1) as (q & Eq & Dq & Mq). destruct (brick_moments L m2 x2 y2 z2 ltac:(lia) X2 Y2 Z2) as (qs & Eqs & Dqs & Mqs).
  destruct (C80_force _ _ _ _ _ _ _ _ _ _ x y z t gap q qs G1 G2 R1 Hg Ht ltac:(lia) ltac:(lia) Mq Mqs) as (Q & fx & fy & fz & f & g & A1 & A2 & A3 & B).
  rewrite Dq in A2. exists q, qs, Q, fx, fy, fz, pts, qts, f, g. do 7 (split; [assumption|]).
  assert (P1 := Rabs_pos m1). assert (P2 := Rabs_pos m2). assert (HG := G_pos). assert (IG : 0 < / gap ^ 3) by (apply Rinv_0_lt_compat, pow_lt, Hg).
  assert (LE : truncation (deg q) (Rabs m1) (Rabs m2) (r1 + vnorm (x, y, z) + r2) (vnorm t) +
    fineness (Rabs m1) (Rabs m1 * ((x1 / INR n1 + y1 / INR n1 + z1 / INR k1) / 4)) (Rabs m2) (Rabs m2 * ((x2 / INR n2 + y2 / INR n2 + z2 / INR k2) / 4)) gap <=
    BIG_G * Rabs m1 * Rabs m2 * (force_tail (Z.to_nat L) (r1 + vnorm (x, y, z) + r2) (vnorm t) + 3 * h / gap ^ 3)).
  { rewrite Dq. unfold truncation, fineness. rewrite (Rmult_plus_distr_l (BIG_G * Rabs m1 * Rabs m2)). apply Rplus_le_compat; [lra|].
    set (c1 := (x1 / INR n1 + y1 / INR n1 + z1 / INR k1) / 4) in *. set (c2 := (x2 / INR n2 + y2 / INR n2 + z2 / INR k2) / 4) in *.
    assert (C1 : c1 <= 3 / 4 * h) by (unfold c1; lra). assert (C2 : c2 <= 3 / 4 * h) by (unfold c2; lra). clearbody c1 c2.
    replace (BIG_G * (2 / gap ^ 3 * (Rabs m1 * (Rabs m2 * c2) + Rabs m2 * (Rabs m1 * c1)))) with (BIG_G * Rabs m1 * Rabs m2 * (2 * (c1 + c2) * / gap ^ 3)) by (unfold Rdiv; ring).
    apply Rmult_le_compat_l; [apply Rmult_le_pos; [apply Rmult_le_pos; assumption|exact P2]|]. unfold Rdiv. apply Rmult_le_compat_r; lra. }
  cbv zeta in B. destruct B as (BX & BY & BZ). cbv zeta. split; [|split]; lra.
Qed.
(* the hypotheses of the machine theorems are met: two bricks of masses 1 and 2, double precision *)
Example C80_case : exists pts qts D1 D2 d1 d2 q qs, gridded pts D1 1 (Rabs 1) d1 /\ gridded qts D2 1 (Rabs 2) d2 /\ 1 + vnorm (0, 0, 0) + 1 + 1 <= vnorm (0, 0, 5) /\
  deg q = 3%Z /\ deg qs = deg q /\ moments_of q D1 /\ moments_of qs D2 /\ accurate (/ 2 ^ 53) binary64 /\ accurate_sin (/ 2 ^ 53) (fun x => rnd binary64 (sin x)) /\
  drift (/ 2 ^ 53) [MShift (0, 0, 0)] 1 + drift (/ 2 ^ 53) [MShift (0, 0, 5)] 1 <= 1 / 2.
Proof.
  destruct (C40_rectangle_equal_counts 1 1 1 1 2 2 ltac:(lra) ltac:(lra) ltac:(lra) ltac:(lia) ltac:(lia)) as (pts & EP & _). destruct (C40_rectangle_equal_counts 2 1 1 1 3 3 ltac:(lra) ltac:(lra) ltac:(lra) ltac:(lia) ltac:(lia)) as (qts & EQ & _).
  assert (G1 := f_brick 1 1 1 1 2 2 pts 1 ltac:(lra) ltac:(lra) ltac:(lra) ltac:(lia) ltac:(lia) ltac:(lra) ltac:(lra) EP). assert (G2 := f_brick 2 1 1 1 3 3 qts 1 ltac:(lra) ltac:(lra) ltac:(lra) ltac:(lia) ltac:(lia) ltac:(lra) ltac:(lra) EQ).
  destruct (brick_moments 3 1 1 1 1 ltac:(lia) ltac:(lra) ltac:(lra) ltac:(lra)) as (q & Eq & Dq & Mq). destruct (brick_moments 3 2 1 1 1 ltac:(lia) ltac:(lra) ltac:(lra) ltac:(lra)) as (qs & Eqs & Dqs & Mqs).
  assert (V5 : vnorm (0, 0, 5) = 5) by (rewrite vnorm_xyz; replace (0 ^ 2 + 0 ^ 2 + 5 ^ 2) with (5 ^ 2) by ring; apply sqrt_pow2; lra).
  assert (V0 : vnorm (0, 0, 0) = 0) by (rewrite vnorm_xyz; replace (0 ^ 2 + 0 ^ 2 + 0 ^ 2) with 0 by ring; apply sqrt_0).
  exists pts, qts, (of_mass 1 (box 1 1 1)), (of_mass 2 (box 1 1 1)). do 2 eexists. exists q, qs. split; [exact G1|]. split; [exact G2|]. split; [rewrite V5, V0; lra|]. split; [exact Dq|]. split; [now rewrite Dqs|]. split; [exact Mq|]. split; [exact Mqs|].
  split; [exact C64_binary64_is_accurate|]. split; [exact sin64|].
  unfold drift. cbn [way length]. rewrite V5, V0. assert (S26 := C64_size (/ 2 ^ 53) 26). unfold move_error.
  assert (U : 0 < / 2 ^ 53 <= / 2 ^ 20). { split; [apply Rinv_0_lt_compat, pow_lt; lra|]. apply Rinv_le_contravar; [apply pow_lt; lra|]. apply Rle_pow; [lra|lia]. }
  replace (/ 2 ^ 20) with (/ 1048576) in U by (f_equal; cbn [pow]; lra). set (u := / 2 ^ 53) in *. clearbody u. cbn [pow]. replace (INR 26) with 26 in S26 by (rewrite INR_IZR_INZ; reflexivity).
  assert (B := S26 ltac:(lra) ltac:(lra)). lra.
Qed.
Print Assumptions C80_force.
Print Assumptions C80_torque.
Print Assumptions C80_force_in_floats.
Print Assumptions C80_torque_in_floats.
Print Assumptions C80_bricks.
