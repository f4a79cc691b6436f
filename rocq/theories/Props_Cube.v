(* C40, C77: what glibShapes.sphere's arrays converge to as they are refined: the moments of a cube of side R, not of the ball of radius R. *)
From Coq Require Import Reals Lra Lia List ZArith.
From Coquelicot Require Import Coquelicot.
From Verif Require Import MathSpec Solid Sums QlmProofs6 Glib GlibSpec GlibProofs MomentSpec Pg2Multi Pg2MultiProofs Props_Moments MultipoleLib SolidSpec ShapeSpec QlmProofs QlmProofs3 Qlm Props_Qlm BodySpec GlibShapes PointSpec Props_GlibShapes RefineSpec Props_Refine Props_Budget.
From Verif Require Import Cplx.
Open Scope R_scope.

Lemma even_off N Rad pts mass : 0 < Rad -> mass <> 0 -> (0 < N)%nat -> g_sphere mass Rad (2 * N) = Ok pts -> ~ origin_before_other pts.
Proof.
  intros HR Hm HN E. apply off_origin. intros v Hv ->. rewrite C40_sphere_is_a_cube in E by (assumption || lia).
  destruct (C40_rectangle_equal_counts mass Rad Rad Rad (2 * N) (2 * N)) as (pts' & E' & HF); try assumption; try lia. rewrite E in E'. injection E' as <-.
  destruct HF as (HF & _). apply HF in Hv. destruct Hv as (L & _).
  unfold on_lattice, v0 in L. destruct L as ((i & Hi & EI) & _). unfold brick_span in EI. cbn [s_x0 s_x1] in EI.
  assert (P : 0 < INR (2 * N)) by (apply lt_0_INR; lia).
  assert (K : INR (2 * i + 1) = INR (2 * N)).
  { rewrite plus_INR, mult_INR. cbn [INR]. apply Rmult_eq_reg_r with (Rad / INR (2 * N)); [|apply Rgt_not_eq; now apply Rdiv_lt_0_compat].
    transitivity Rad; [|field; lra]. match type of EI with ?u = ?w => assert (Q : w = - (Rad / 2) + (INR i + 1 / 2) * (Rad / INR (2 * N))) by (field; lra) end.
    rewrite Q in EI. lra. }
  apply INR_eq in K. lia.
Qed.

(* mom q l m: the entry (l, m) of a moment array; rect_prism is the toolkit's own formula for a brick *)
Theorem C40_sphere_moments_of_a_cube : forall L mass Rad, (0 <= L)%Z -> mass <> 0 -> 0 < Rad ->
  exists q, rect_prism L mass Rad Rad Rad 0 = Ok q /\ deg q = L /\ moments_of q (of_mass mass (box Rad Rad Rad)) /\ forall eps, 0 < eps ->
  exists N, forall n, (N <= n)%nat -> exists pts qp, g_sphere mass Rad (2 * n) = Ok pts /\ qmoments L pts = Ok qp /\
    forall l m, (0 <= l <= L)%Z -> (Z.abs m <= l)%Z -> Cmod (mom qp l m - mom q l m)%C < eps.
Proof.
  intros L mass Rad HL Hm HR. destruct (brick_moments L mass Rad Rad Rad HL HR HR HR) as (q & E & Dq & MB). exists q. split; [exact E|]. split; [exact Dq|]. split; [exact MB|]. intros eps He.
  destruct (C77_moments _ _ _ q (d_rectangle mass Rad Rad Rad (Rad) HR HR HR ltac:(lra) ltac:(nra)) ltac:(lia) MB eps He) as (N & Q).
  exists (N + 1)%nat. intros n Hn. assert (E1 := C40_sphere_is_a_cube mass Rad (2 * n) HR Hm ltac:(lia)).
  destruct (C40_rectangle_equal_counts mass Rad Rad Rad (2 * n) (2 * n)) as (pts & Ep & _); try assumption; try lia.
  destruct (Q N pts ltac:(lia)) as (qp & Eq & _ & CL).
  - exists (2 * n)%nat, (2 * n)%nat. split; [lia|]. split; [lia|exact Ep].
  - apply (even_off n Rad pts mass); try assumption; [lia|]. now rewrite E1.
  - exists pts, qp. split; [now rewrite E1|]. rewrite <- Dq. split; [exact Eq|exact CL].
Qed.
Print Assumptions C40_sphere_moments_of_a_cube.
Example C40_cube_case : exists q, rect_prism 4 6 2 2 2 0 = Ok q /\ moments_of q (of_mass 6 (box 2 2 2)).
Proof. destruct (C40_sphere_moments_of_a_cube 4 6 2 ltac:(lia) ltac:(lra) ltac:(lra)) as (q & E & _ & M & _). now exists q. Qed.

(* the (4, 0) moment of the cube is not 0; that of the ball is *)
Lemma cube40 Rad : 0 < Rad -> mono_int (mu_box Rad Rad Rad) 4 0 = RtoC (- (7 / 11520) * Rad ^ 7).
Proof.
  intros HR. unfold mono_int, zsum, mu_box. 
  cbv [Z.sub Z.add Z.opp Z.div Z.mul Z.to_nat Z.of_nat Z.div_eucl Z.pos_div_eucl Z.pos_sub Pos.add Pos.sub Pos.sub_mask Pos.succ Pos.mul Pos.to_nat Pos.iter_op Pos.of_succ_nat Z.leb Z.ltb Z.compare Pos.compare Pos.compare_cont Z.double Z.succ_double Z.pred_double Pos.double_mask Pos.succ_double_mask Pos.double_pred_mask Pos.pred_double Nat.add Pos.add_carry nsum Nat.sub fst snd Z.geb].
  unfold coef, zval, pw, zfact, sgnC. cbn [Z.even Z.add Z.sub Z.opp Z.mul Pos.mul Pos.add Pos.succ Z.pos_sub Z.to_nat Pos.to_nat Pos.iter_op Nat.add fact Nat.mul powerRZ cpow Pos.pred_double].
  change (Pos.to_nat 1) with 1%nat; change (Pos.to_nat 2) with 2%nat; change (Pos.to_nat 3) with 3%nat; change (Pos.to_nat 4) with 4%nat; change (Pos.to_nat 5) with 5%nat; change (Pos.to_nat 6) with 6%nat.
  rewrite !INR_IZR_INZ. cbn [fact Nat.mul Nat.add Z.of_nat Pos.of_succ_nat Pos.succ cpow].
  apply C_eq; cbn -[IZR pow]; rewrite ?INR_IZR_INZ; field; lra.
Qed.
Lemma cube40_ne q mass Rad : 0 < Rad -> mass <> 0 -> (4 <= deg q)%Z -> moments_of q (of_mass mass (box Rad Rad Rad)) -> mom q 4 0 <> RtoC 0.
Proof.
  intros HR Hm HL (HM & _) Z. destruct (HM 4%Z 0%Z ltac:(lia) ltac:(lia)) as (V & J & HV & _ & HJ & EJ). assert (RB := regular_box Rad Rad Rad).
  assert (EI : J = (RtoC (nrm 4 0) * mono_int (mu_box Rad Rad Rad) 4 0)%C).
  { refine (reg_unique _ RB _ _ _ HJ _). apply (reg_scal _ RB). apply (mono_solid _ (mu_box Rad Rad Rad)); [exact RB|intros; now apply box_mono|lia]. }
  rewrite cube40 in EI by assumption. rewrite EJ, EI, <- !RtoC_mult in Z. apply RtoC_inj in Z. assert (N := nrm_pos 4 0 ltac:(lia)). assert (P := pow_lt Rad 7 HR).
  assert (Q : mass / V <> 0) by (unfold Rdiv; apply Rmult_integral_contrapositive_currified; [exact Hm|now apply Rinv_neq_0_compat]).
  apply Rmult_integral in Z. destruct Z as [Z|Z]; [now apply Q|]. nra.
Qed.

(* so no refinement brings the array called a sphere near the moments the toolkit's own formula gives a sphere *)
Theorem C40_sphere_moments_not_a_balls : forall L mass Rad, (4 <= L)%Z -> mass <> 0 -> 0 < Rad ->
  exists eps N, 0 < eps /\ forall n, (N <= n)%nat -> exists pts qp, g_sphere mass Rad (2 * n) = Ok pts /\ qmoments L pts = Ok qp /\
    eps <= Cmod (mom qp 4 0 - mom (sphere L mass Rad) 4 0)%C.
Proof.
  intros L mass Rad HL Hm HR. destruct (C40_sphere_moments_of_a_cube L mass Rad ltac:(lia) Hm HR) as (q & _ & Dq & MB & CV).
  assert (NZ := cube40_ne q mass Rad HR Hm ltac:(lia) MB). assert (P := proj1 (Cmod_gt_0 _) NZ).
  destruct (CV (Cmod (mom q 4 0) / 2) ltac:(lra)) as (N & Q). exists (Cmod (mom q 4 0) / 2), N. split; [lra|]. intros n Hn. destruct (Q n Hn) as (pts & qp & E & Eq & CL).
  exists pts, qp. split; [exact E|]. split; [exact Eq|]. specialize (CL 4%Z 0%Z ltac:(lia) ltac:(lia)).
  assert (Z : mom (sphere L mass Rad) 4 0 = RtoC 0) by (unfold mom, sphere; rewrite upd_spec; reflexivity).
  rewrite Z. replace (mom qp 4 0 - RtoC 0)%C with (mom qp 4 0) by ring.
  assert (T := Cmod_triangle (mom qp 4 0) (mom q 4 0 - mom qp 4 0)%C). replace (mom qp 4 0 + (mom q 4 0 - mom qp 4 0))%C with (mom q 4 0) in T by ring.
  rewrite <- (Cmod_opp (mom q 4 0 - mom qp 4 0)%C) in T. replace (- (mom q 4 0 - mom qp 4 0))%C with (mom qp 4 0 - mom q 4 0)%C in T by ring. lra.
Qed.
Print Assumptions C40_sphere_moments_not_a_balls.
