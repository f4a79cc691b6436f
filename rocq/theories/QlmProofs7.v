(* The moments of a homogeneous ball: newt/qlm.py sphere. *)
From Verif Require Export QlmProofs6.
From Verif Require Import ClebschGordanProofs TranslationsProofs.
From Verif Require Import Cplx.
Open Scope C_scope.

Lemma tri_weight l m A z B :
  RtoC (IZR m) * tri l m A z B = A * tri (l - 1) (m - 1) A z B - B * tri (l - 1) (m + 1) A z B.
Proof.
  rewrite (tri_range l m A z B (-1) (l + 3)) by lia.
  rewrite (tri_range (l - 1) (m - 1) A z B (-1) (l + 3)) by lia.
  rewrite (tri_range (l - 1) (m + 1) A z B (-2) (l + 2)) by lia.
  rewrite (zsum_shift 1 (-2)).
  change (-2 + 1)%Z with (-1)%Z. replace (l + 2 + 1)%Z with (l + 3)%Z by ring.
  rewrite <- !zsum_scal_l, <- zsum_minus. apply zsum_ext. intros k Hk. unfold trit.
  replace (RtoC (IZR m)) with (RtoC (IZR (m + k)) - RtoC (IZR k)) by (rewrite plus_IZR, RtoC_plus; ring).
  replace (l - 1 - (m - 1) - 2 * k)%Z with (l - m - 2 * k)%Z by ring.
  replace (m - 1 + k)%Z with (m + k - 1)%Z by ring.
  replace (l - 1 - (m + 1) - 2 * (k - 1))%Z with (l - m - 2 * k)%Z by ring.
  replace (m + 1 + (k - 1))%Z with (m + k)%Z by ring.
  transitivity (dp z (l - m - 2 * k) * (RtoC (IZR (m + k)) * dp A (m + k)) * dp B k
     - dp z (l - m - 2 * k) * dp A (m + k) * (RtoC (IZR k) * dp B k)); [ring|].
  rewrite !dp_rec. ring.
Qed.
(* the polar factor *)
Definition gth (l m : Z) (t : R) : C := tri l m (- RtoC (sin t) * RtoC (/ 2)) (RtoC (cos t)) (RtoC (sin t) * RtoC (/ 2)).
Lemma solid_spherical l m r th ph : (0 <= l)%Z ->
  solid l m (r * sin th * cos ph) (r * sin th * sin ph) (r * cos th) = RtoC (pw r l) * (cexpi (- (IZR m * ph)) * gth l m th).
Proof.
  intros Hl. unfold solid, gth.
  replace (- (RtoC (r * sin th * cos ph) - Ci * RtoC (r * sin th * sin ph)) / RtoC 2) with (RtoC r * (cexpi (- ph) * (- RtoC (sin th) * RtoC (/ 2))))
    by (apply C_eq; unfold cexpi; simpl; rewrite cos_neg, sin_neg; field).
  replace ((RtoC (r * sin th * cos ph) + Ci * RtoC (r * sin th * sin ph)) / RtoC 2) with (RtoC r * (/ cexpi (- ph) * (RtoC (sin th) * RtoC (/ 2)))).
  - rewrite RtoC_mult, tri_scal, tri_phase, wpow_cexpi, cpow_RtoC, <- pw_nonneg by (assumption || apply cexpi_neq0). do 3 f_equal. ring.
  - assert (/ cexpi (- ph) = cexpi ph) as ->.
    { assert (H1 := cexpi_opp_mul ph). assert (H2 := cexpi_neq0 (- ph)).
      transitivity (cexpi (- ph) * cexpi ph / cexpi (- ph)); [rewrite H1; field; assumption|field; assumption]. }
    apply C_eq; unfold cexpi; simpl; field.
Qed.
Lemma cder_sinC t : cder (fun t => RtoC (sin t)) t (RtoC (cos t)).
Proof. split; cbn; auto_derive; auto; ring. Qed.
Lemma cder_cosC t : cder (fun t => RtoC (cos t)) t (- RtoC (sin t)).
Proof. split; cbn; auto_derive; auto; ring. Qed.
Lemma cder_gth l m t : cder (gth l m) t
  (- RtoC (cos t) * RtoC (/ 2) * gth (l - 1) (m - 1) t + - RtoC (sin t) * gth (l - 1) m t + RtoC (cos t) * RtoC (/ 2) * gth (l - 1) (m + 1) t).
Proof.
  exact (cder_tri l m (fun t => - RtoC (sin t) * RtoC (/ 2)) (fun t => RtoC (cos t)) (fun t => RtoC (sin t) * RtoC (/ 2)) t _ _ _
    (cder_scal_r (RtoC (/ 2)) _ t _ (cder_opp _ t _ (cder_sinC t))) (cder_cosC t) (cder_scal_r (RtoC (/ 2)) _ t _ (cder_sinC t))).
Qed.
Lemma gth_opp l m t : gth l (- m) t = sgnC m * gth l m t.
Proof.
  unfold gth. rewrite <- tri_flip. rewrite <- tri_opp_AB. f_equal; ring.
Qed.
Lemma ex_CInt f a b : (forall t, exists d, cder f t d) -> exists v, is_CInt f a b v.
Proof.
  intros Hf.
  assert (H1 : ex_RInt (fun t => Re (f t)) a b).
  { apply (ex_RInt_continuous (V := R_CompleteNormedModule)). intros x _. destruct (Hf x) as [d [Hd _]]. apply (ex_derive_continuous (V := R_NormedModule)). now exists (Re d). }
  assert (H2 : ex_RInt (fun t => Im (f t)) a b).
  { apply (ex_RInt_continuous (V := R_CompleteNormedModule)). intros x _. destruct (Hf x) as [d [_ Hd]]. apply (ex_derive_continuous (V := R_NormedModule)). now exists (Im d). }
  destruct H1 as [v1 H1], H2 as [v2 H2]. exists ((v1, v2) : C). split; assumption.
Qed.
Lemma ex_sin_gth l m : exists v, is_CInt (fun t => RtoC (sin t) * gth l m t) 0 PI v.
Proof.
  apply ex_CInt. intros t. eexists. exact (cder_mult _ _ t _ _ (cder_sinC t) (cder_gth l m t)).
Qed.
(* int_0^pi P_l(cos t) sin t dt = 0 for l >= 1 *)
Lemma gth_int0 l : (1 <= l)%Z -> is_CInt (fun t => RtoC (sin t) * gth l 0 t) 0 PI 0.
Proof.
  intros Hl. assert (Hn : RtoC (IZR l) <> 0) by (apply RtoC_neq0, IZR_pos_neq0; lia).
  set (F := fun t => - / RtoC (IZR l) * (RtoC (sin t) * gth l 1 t)).
  apply (is_CInt_val _ _ _ (F PI - F 0%R)); [unfold F; rewrite sin_PI, sin_0; ring|].
  apply is_CInt_ftc.
  - intros t. eapply cder_val; [|exact (cder_scal (- / RtoC (IZR l)) _ t _ (cder_mult _ _ t _ _ (cder_sinC t) (cder_gth l 1 t)))].
    assert (W := tri_weight l 1 (- RtoC (sin t) * RtoC (/ 2)) (RtoC (cos t)) (RtoC (sin t) * RtoC (/ 2))).
    assert (Rl := tri_rec l 0 (- RtoC (sin t) * RtoC (/ 2)) (RtoC (cos t)) (RtoC (sin t) * RtoC (/ 2))).
    fold (gth l 1 t) in W. fold (gth l 0 t) in Rl.
    replace (1 - 1)%Z with 0%Z in W by ring. replace (1 + 1)%Z with 2%Z in W by ring. change (0 - 1)%Z with (- (1))%Z in Rl. change (0 + 1)%Z with 1%Z in Rl.
    fold (gth (l - 1) 0 t) in W, Rl. fold (gth (l - 1) 2 t) in W. fold (gth (l - 1) (- (1)) t) in Rl. fold (gth (l - 1) 1 t) in Rl.
    rewrite gth_opp, sgnC_1 in Rl. replace (1 - 1)%Z with 0%Z by ring. replace (1 + 1)%Z with 2%Z by ring.
    assert (W' : gth l 1 t = - RtoC (sin t) * RtoC (/ 2) * gth (l - 1) 0 t - RtoC (sin t) * RtoC (/ 2) * gth (l - 1) 2 t) by (rewrite <- W; ring).
    rewrite W'. transitivity (RtoC (sin t) * (RtoC (IZR l) * gth l 0 t) / RtoC (IZR l)); [|field; assumption].
    rewrite Rl. assert (H2 : RtoC (/ 2) = / 2) by (rewrite RtoC_inv by lra; reflexivity). rewrite H2. field. assumption.
  - intros t. eexists. exact (cder_mult _ _ t _ _ (cder_sinC t) (cder_gth l 0 t)).
Qed.
Lemma regular_ball R_ : regular (solid_ball R_).
Proof.
  apply (regular_int3 _ _ _ _ _ _ (fun f ph th r => RtoC (r ^ 2 * sin th) * f (r * sin th * cos ph)%R (r * sin th * sin ph)%R (r * cos th)%R)); intros.
  - now rewrite H.
  - ring.
  - ring.
  - rewrite Cconj_mult, Cconj_RtoC. reflexivity.
Qed.
Lemma ball_solid R_ l m v : (0 <= l)%Z -> is_CInt (fun t => RtoC (sin t) * gth l m t) 0 PI v ->
  solid_ball R_ (fun x y z => solid l m x y z) (RtoC (pw R_ (l + 3) / IZR (l + 3)) * v * Phi m PI PI).
Proof.
  intros Hl Hv. unfold solid_ball. assert (Hp := PI_neq0).
  exists (fun ph th => RtoC (pw R_ (l + 3) / IZR (l + 3)) * cexpi (- (IZR m * ph)) * (RtoC (sin th) * gth l m th)),
    (fun ph => RtoC (pw R_ (l + 3) / IZR (l + 3)) * v * cexpi (- (IZR m * ph))).
  split; [|split].
  - intros ph th. apply (is_CInt_ext (fun r => RtoC (sin th) * cexpi (- (IZR m * ph)) * gth l m th * RtoC (pw r (l + 2)))).
    { intros r. rewrite solid_spherical by assumption. rewrite (pw_add_nonneg r l 2), (pw_nonneg r 2) by lia. change (Z.to_nat 2) with 2%nat. rewrite !RtoC_mult. ring. }
    eapply is_CInt_val; [|apply is_CInt_scal; apply rint; lia]. replace (l + 2 + 1)%Z with (l + 3)%Z by ring. rewrite (pw_zero (l + 3)) by lia.
    rewrite Rminus_0_r. ring.
  - intros ph. eapply is_CInt_val; [|apply is_CInt_scal; exact Hv]. ring.
  - apply is_CInt_scal. replace 0%R with (PI - PI)%R by ring. replace (2 * PI)%R with (PI + PI)%R by ring. now apply phi_int.
Qed.
Lemma ball_volume R_ : solid_ball R_ (fun _ _ _ => 1) (RtoC (4 * PI * R_ ^ 3 / 3)).
Proof.
  assert (H := ball_solid R_ 0 0 (RtoC 2) ltac:(lia)). assert (Hp := PI_neq0).
  apply (reg_ext _ (regular_ball R_) (fun x y z => solid 0 0 x y z)); [intros; apply solid_00|].
  eapply reg_val; [|apply H].
  - unfold Phi, np_sinc. rewrite (Rmult_0_l PI). destruct (Req_EM_T (0 / PI) 0) as [_|E]; [|exfalso; apply E; unfold Rdiv; ring].
    rewrite Ropp_0, cexpi_0, Cmult_1_r. rewrite <- !RtoC_mult. f_equal. change (0 + 3)%Z with 3%Z. rewrite pw_nonneg by lia. change (Z.to_nat 3) with 3%nat. field.
  - apply (is_CInt_ext (fun t => RtoC (sin t))); [intros t; unfold gth; rewrite tri_0_0; ring|].
    apply (is_CInt_val _ _ _ (- RtoC (cos PI) - - RtoC (cos 0))); [rewrite cos_PI, cos_0; apply C_eq; simpl; ring|].
    apply (is_CInt_ftc (fun t => - RtoC (cos t))).
    + intros t. eapply cder_val; [|exact (cder_opp _ t _ (cder_cosC t))]. ring.
    + intros t. exists (RtoC (cos t)). apply cder_sinC.
Qed.
Lemma sphere_body L mass R_ : (0 <= L)%Z -> R_ <> 0%R -> deg (sphere L mass R_) = L /\ moments_of_body (sphere L mass R_) mass (solid_ball R_).
Proof.
  intros HL HR. split; [reflexivity|]. assert (Hp := PI_RGT_0).
  assert (HV : (4 * PI * R_ ^ 3 / 3 <> 0)%R).
  { assert (R_ ^ 3 <> 0)%R by now apply pow_nonzero. intros E. apply H. apply (f_equal (fun x => x * 3 / (4 * PI))%R) in E. transitivity (4 * PI * R_ ^ 3 / 3 * 3 / (4 * PI))%R; [field; lra|]. rewrite E. unfold Rdiv. ring. }
  exists (4 * PI * R_ ^ 3 / 3)%R. split; [exact HV|]. split; [apply ball_volume|].
  assert (M : forall l m, (0 <= l <= L)%Z -> (Z.abs m <= L)%Z -> mom (sphere L mass R_) l m = if (l =? 0)%Z && (m =? 0)%Z then RtoC (mass / sqrt (4 * PI)) else 0).
  { intros l m Hl Hm. unfold mom, sphere. rewrite deg_upd, upd_spec. cbn [deg zeros at_]. 
    destruct (Z.eqb_spec (L + m) L), (Z.eqb_spec m 0); try lia; reflexivity. }
  change (deg (sphere L mass R_)) with L. split.
  - intros l m Hl Hm. rewrite M by lia. destruct (Z.eqb_spec l 0) as [->|Hl0].
    + replace m with 0%Z in * by lia. cbn [Z.eqb andb].
      exists (RtoC (nrm 0 0) * RtoC (4 * PI * R_ ^ 3 / 3)). split.
      * unfold rsolid. apply (reg_scal _ (regular_ball R_) (RtoC (nrm 0 0)) (fun x y z => solid 0 0 x y z)).
        apply (reg_ext _ (regular_ball R_) (fun _ _ _ => 1)); [intros; symmetry; apply solid_00|apply ball_volume].
      * rewrite <- !RtoC_mult. f_equal. unfold nrm. change (0 + 0)%Z with 0%Z. change (0 - 0)%Z with 0%Z. rewrite zfact_0. replace ((2 * 0 + 1) * 1 * 1 / (4 * PI))%R with (/ (4 * PI))%R by (field; lra).
        rewrite sqrt_inv. assert (sqrt (4 * PI) <> 0)%R by (apply Rgt_not_eq, sqrt_lt_R0; lra).
        assert (R_ ^ 3 <> 0)%R by now apply pow_nonzero. assert (PI <> 0)%R by lra. generalize dependent (R_ ^ 3)%R. intros r3 HV' Hr. field. repeat split; assumption.
    + cbn [andb]. exists 0. split; [|ring]. unfold rsolid.
      apply (reg_val _ _ (RtoC (nrm l m) * 0)); [ring|]. apply (reg_scal _ (regular_ball R_) (RtoC (nrm l m)) (fun x y z => solid l m x y z)).
      destruct (Z.eq_dec m 0) as [->|Hm0].
      * eapply reg_val; [|apply (ball_solid R_ l 0 0); [lia|apply gth_int0; lia]]. ring.
      * destruct (ex_sin_gth l m) as [v Hv]. eapply reg_val; [|apply (ball_solid R_ l m v); [lia|exact Hv]]. rewrite Phi_full by assumption. ring.
  - intros l m Hl Hm. change (deg (sphere L mass R_)) with L in *. rewrite M by lia. destruct (Z.eqb_spec l 0), (Z.eqb_spec m 0); try reflexivity; lia.
Qed.
