(* C73 for solid bodies: one constant per pair of mass distributions, and the error of the energy, force and torque decays
   with the degree like the explicit tails of the two-centre theorem. *)
From Coq Require Import Reals Lra Lia ZArith List.
From Coquelicot Require Import Coquelicot.
From Verif Require Import MultipoleProofs2 TranslationsProofs Sums Props_Multipole TransSpec TransRecProofs NewtonSpec Irreg Props_Series Newton CDeriv MultipoleLib MultipoleProofs RotSpec Rotations Translations Props_Torque Props_Series2 Addition Irreg2 Legendre.
From Verif Require Import LipInt BodyPair BodyLim BodyInt BodyShapes Pg2MultiProofs Props_Body Props_Rate Irreg4 Props_Rate2.
From Verif Require Import BodySpec BuiltSpec.
From Verif Require Import Cplx.
Open Scope R_scope.

Lemma energy_tail_mono L r a T : 0 <= r <= a -> a < T -> energy_tail L r T <= energy_tail L a T.
Proof.
  intros Hr Ha. unfold energy_tail.
  apply Rmult_le_compat; [apply pow_le, Rdiv_le_0_compat; lra|apply Rlt_le, Rinv_0_lt_compat; lra| |apply Rinv_le_contravar; lra].
  apply pow_incr. split; [apply Rdiv_le_0_compat; lra|]. apply Rmult_le_compat_r; [apply Rlt_le, Rinv_0_lt_compat; lra|lra].
Qed.
Lemma energy_tail_nonneg L a T : 0 <= a < T -> 0 <= energy_tail L a T.
Proof. intros H. unfold energy_tail. apply Rdiv_le_0_compat; [apply pow_le, Rdiv_le_0_compat; lra|lra]. Qed.
Lemma scaled_gap (c J K e : R) (I : C) : Cmod (I - RtoC J)%C <= K * e -> Cmod (RtoC c * I - RtoC (c * J))%C <= Rabs c * K * e.
Proof.
  intros H. replace (RtoC c * I - RtoC (c * J))%C with (RtoC c * (I - RtoC J))%C by (rewrite RtoC_mult; ring).
  rewrite Cmod_mult, Cmod_R, Rmult_assoc. apply Rmult_le_compat_l; [apply Rabs_pos|exact H].
Qed.
Lemma axis_norm i : vnorm (axis_e i) = 1.
Proof. destruct i as [|[|i]]; cbn [axis_e]; rewrite vnorm_xyz; apply sqrt_lem_1; lra. Qed.
Theorem C73_bodies : forall B1 r1 B2 r2, built B1 r1 -> built B2 r2 -> exists K, 0 <= K /\
  (* energy *)
  (forall t c E q qs, r1 + r2 < vnorm t -> pair_integral B1 r1 B2 r2 (fun v w => near_energy v (vadd w t)) E ->
     (0 <= deg q)%Z -> deg qs = deg q -> moments_of q B1 -> moments_of qs B2 ->
     exists Q, translate_q2Q qs t = Ok Q /\ deg Q = deg q /\
       Cmod (work c (deg q) (mom q) (mom Q) - RtoC (c * E))%C <= Rabs c * K * energy_tail (Z.to_nat (deg q)) (r1 + r2) (vnorm t)) /\
  (* force on the first body, moved by (x, y, z) *)
  (forall t x y z c Fx Fy Fz q qs, r1 + vnorm (x, y, z) + r2 < vnorm t ->
     pair_integral B1 r1 B2 r2 (fun v w => pull (1, 0, 0) (vadd v (x, y, z)) (vadd w t)) Fx ->
     pair_integral B1 r1 B2 r2 (fun v w => pull (0, 1, 0) (vadd v (x, y, z)) (vadd w t)) Fy ->
     pair_integral B1 r1 B2 r2 (fun v w => pull (0, 0, 1) (vadd v (x, y, z)) (vadd w t)) Fz ->
     (1 <= deg q)%Z -> deg qs = deg q -> moments_of q B1 -> moments_of qs B2 ->
     exists Q fx fy fz, translate_q2Q qs t = Ok Q /\ multipole_force (deg q) q Q x y z c = Ok (fx, fy, fz) /\
       let b := Rabs c * K * force_tail (Z.to_nat (deg q)) (r1 + vnorm (x, y, z) + r2) (vnorm t) in
       Cmod (fx - RtoC (c * Fx))%C <= b /\ Cmod (fy - RtoC (c * Fy))%C <= b /\ Cmod (fz - RtoC (c * Fz))%C <= b) /\
  (* torque about z with the first body turned by phi *)
  (forall t phi c T q qs, r1 + r2 < vnorm t -> pair_integral B1 r1 B2 r2 (fun v w => twist (zrot phi v) (vadd w t)) T ->
     (1 <= deg q)%Z -> deg qs = deg q -> moments_of q B1 -> moments_of qs B2 ->
     exists Q nlm nc ns n, translate_q2Q qs t = Ok Q /\ torque_lm q Q c = Ok (nlm, nc, ns) /\ torques_at_angle nc ns phi false = Ok n /\
       Rabs (n - c * T) <= Rabs c * K * (r1 * force_tail (Z.to_nat (deg q)) (r1 + r2) (vnorm t))).
Proof.
  intros B1 r1 B2 r2 H1 H2. apply nice_built in H1. apply nice_built in H2. destruct H1 as [R1 C1 _ P1], H2 as [R2 C2 _ P2].
  destruct (pair_close B1 B2 r1 r2 R1 R2 C1 C2) as (K & HK & Hc). exists K. split; [exact HK|]. split; [|split].
  - intros t c E q qs Ht HE HL Dq M1 M2. destruct (q2Q_Ok qs t ltac:(lia) ltac:(lra)) as (Q & EQ & DQ). exists Q. split; [exact EQ|]. split; [lia|].
    destruct (energy_form B1 B2 1 1 q qs Q t R1 R2 ltac:(lia) Dq ltac:(lra) (moments_density _ _ M1) (moments_density _ _ M2) EQ) as (I & P & W). rewrite W, !Rmult_1_r.
    apply scaled_gap. apply (Hc _ E _ I _ (energy_tail_nonneg (Z.to_nat (deg q)) (r1 + r2) (vnorm t) ltac:(split; lra)) HE P). intros v w Hv Hw.
    assert (V := vnorm_ge0 v). assert (U := vnorm_ge0 w).
    eapply Rle_trans; [apply (en_rate (deg q) v w t); [lia|lra]|]. rewrite <- Nat.add_1_r. apply (energy_tail_mono _ (vnorm v + vnorm w)); lra.
  - intros t x y z c Fx Fy Fz q qs Ht JX JY JZ HL Dq M1 M2. assert (HX := vnorm_ge0 (x, y, z)).
    destruct (q2Q_Ok qs t ltac:(lia) ltac:(lra)) as (Q & E & DQ).
    destruct (multipole_force_grad q Q x y z c ltac:(lia) ltac:(lia) ltac:(lia)) as (fx & fy & fz & EF & _).
    exists Q, fx, fy, fz. split; [exact E|]. split; [exact EF|]. intros b.
    assert (G : forall i J, pair_integral B1 r1 B2 r2 (fun v w => pull (axis_e i) (vadd v (x, y, z)) (vadd w t)) J ->
      Cmod (match i with 0%nat => fx | 1%nat => fy | _ => fz end - RtoC (c * J))%C <= b).
    { intros i J HJ. destruct (force_form B1 B2 1 1 q qs Q t R1 R2 ltac:(lia) Dq ltac:(lra) (moments_density _ _ M1) (moments_density _ _ M2) E i x y z c fx fy fz ltac:(lia) EF) as (I & P & W).
      rewrite W, !Rmult_1_r. unfold b. apply scaled_gap. apply (Hc _ J _ I _ (force_tail_nonneg (Z.to_nat (deg q)) (r1 + vnorm (x, y, z) + r2) (vnorm t) ltac:(split; lra)) HJ P). intros v w Hv Hw.
      assert (T := vnorm_triangle v (x, y, z)). assert (V := vnorm_ge0 (vadd v (x, y, z))). assert (U := vnorm_ge0 w).
      eapply Rle_trans; [apply (den_rate (deg q) (axis_e i) (vadd v (x, y, z)) w t); [lia|lra]|]. rewrite axis_norm, Rmult_1_l. apply force_tail_mono; lra. }
    split; [exact (G 0%nat Fx JX)|split; [exact (G 1%nat Fy JY)|exact (G 2%nat Fz JZ)]].
  - intros t phi c T q qs Ht HJ HL Dq M1 M2. destruct (q2Q_Ok qs t ltac:(lia) ltac:(lra)) as (Q & E & DQ).
    destruct (torque_lm_ok q Q c ltac:(lia) ltac:(lia)) as (nlm & nc & ns & En & _).
    assert (RQ : reality Q) by (eapply q2Q_symm; [|exact (moments_reality _ _ R2 M2)|exact E]; lia).
    destruct (torque_at q Q c nlm nc ns phi ltac:(lia) ltac:(lia) (moments_reality _ _ R1 M1) (proj2 M1) RQ En) as (n & Et & W).
    exists Q, nlm, nc, ns, n. split; [exact E|]. split; [exact En|]. split; [exact Et|].
    destruct (torque_form B1 B2 1 1 q qs Q t R1 R2 ltac:(lia) Dq ltac:(lra) (moments_density _ _ M1) (moments_density _ _ M2) E phi c ltac:(lia)) as (I & P & W2).
    rewrite W2, !Rmult_1_r in W. rewrite <- Cmod_R, RtoC_minus, W. apply scaled_gap.
    assert (TN := force_tail_nonneg (Z.to_nat (deg q)) (r1 + r2) (vnorm t) ltac:(split; lra)).
    apply (Hc _ T _ I (r1 * force_tail (Z.to_nat (deg q)) (r1 + r2) (vnorm t)) (Rmult_le_pos _ _ P1 TN) HJ P). intros v w Hv Hw.
    assert (V := vnorm_ge0 v). assert (U := vnorm_ge0 w). assert (Hz := vnorm_zrot phi v). unfold twist, pull. rewrite zspin_cross.
    eapply Rle_trans; [apply (den_rate (deg q) (zspin phi v) (zrot phi v) w t); [lia|lra]|]. rewrite Hz.
    apply Rmult_le_compat; [apply vnorm_ge0|apply force_tail_nonneg; split; lra| |apply force_tail_mono; lra].
    eapply Rle_trans; [apply turn_speed|exact Hv].
Qed.
(* a cylinder and a ball of density 5, the ball carried to (0, 0, 4): the integrals exist for them by C61 *)
Example C73_bodies_case : built (annular_sector 1 0 1 PI PI) 2 /\ built (dense 5 (solid_ball 1)) 1 /\ 2 + 1 < vnorm (0, 0, 4) /\
  exists E, pair_integral (annular_sector 1 0 1 PI PI) 2 (dense 5 (solid_ball 1)) 1 (fun v w => near_energy v (vadd w (0, 0, 4))) E.
Proof.
  destruct C61_case as (A & B & D). split; [exact A|]. split; [exact B|]. split; [exact D|].
  destruct (C61_energy _ _ _ _ (0, 0, 4) 1 A B D) as (E & HE & _). now exists E.
Qed.
Print Assumptions C73_bodies.
