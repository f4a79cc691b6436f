(* The closed forms of qlmACH.py are volume integrals: cones and the annulus. *)
From Verif Require Export AchProofs3.
From Verif Require Import ClebschGordanProofs TranslationsProofs.
From Verif Require Import Cplx.
Open Scope C_scope.

Lemma regular_frustum z0 h ra rb : regular (frustum z0 h ra rb).
Proof. apply (regular_int3 _ _ _ _ _ _ (fun f p z r => RtoC r * f (r * cos p)%R (r * sin p)%R z)); intros; [now rewrite H|ring|ring|rewrite Cconj_mult, Cconj_RtoC; ring]. Qed.
Definition fr_z (z0 h ra rb : R) (c n : Z) : R :=
  (pint c (ppow ((ra - (rb - ra) / h * z0)%R :: ((rb - ra) / h)%R :: nil) (Z.to_nat (n + 2))) z0 (z0 + h) / (zfact c * IZR (n + 2)))%R.
Lemma frustum_mono z0 h ra rb m n c : (0 <= n)%Z -> (0 <= c)%Z ->
  is_int3 0 (2 * PI) (fun _ => z0) (fun _ => (z0 + h)%R) (fun _ _ => 0%R) (fun _ z => (ra + (rb - ra) * ((z - z0) / h))%R)
    (fun p z r => RtoC r * (RtoC (pw r n) * cexpi (- (IZR m * p)) * dp (RtoC z) c))
    (Phi m PI PI * RtoC (fr_z z0 h ra rb c n)).
Proof.
  intros Hn Hc. assert (F := zfact_neq0 c). assert (F2 := IZR_pos_neq0 (n + 2) ltac:(lia)).
  exists (fun p z => cexpi (- (IZR m * p)) * RtoC (/ (zfact c * IZR (n + 2))) * RtoC (pw z c * pw (ra - (rb - ra) / h * z0 + (rb - ra) / h * z) (n + 2))),
    (fun p => cexpi (- (IZR m * p)) * RtoC (fr_z z0 h ra rb c n)).
  split; [|split].
  - intros p z. apply (is_CInt_ext (fun r => cexpi (- (IZR m * p)) * dp (RtoC z) c * RtoC (pw r (n + 1)))).
    + intros r. rewrite pw_add_nonneg, pw_1, RtoC_mult by lia. ring.
    + eapply is_CInt_val; [|apply is_CInt_scal; apply rint; lia]. replace (n + 1 + 1)%Z with (n + 2)%Z by ring.
      rewrite pw_zero, dp_RtoC by lia. rewrite <- !Cmult_assoc, <- !RtoC_mult. do 2 f_equal.
      replace (ra + (rb - ra) * ((z - z0) / h))%R with (ra - (rb - ra) / h * z0 + (rb - ra) / h * z)%R by (unfold Rdiv; ring). field. split; assumption.
  - intros p. eapply is_CInt_val; [|apply is_CInt_scal; apply aff_int; lia].
    rewrite <- Cmult_assoc, <- RtoC_mult. do 2 f_equal. unfold fr_z. field. split; assumption.
  - apply is_CInt_scal_r. assert (G := phi_int m PI PI PI_neq0). replace (PI - PI)%R with 0%R in G by ring. replace (PI + PI)%R with (2 * PI)%R in G by ring. exact G.
Qed.
Definition fr_int (z0 h ra rb : R) (l m : Z) : C :=
  zsum 0 ((l - m) / 2 + 1) (fun k => sgnC (m + k) * RtoC (/ (pw 2 (m + 2 * k) * zfact (m + k) * zfact k)) *
    (Phi m PI PI * RtoC (fr_z z0 h ra rb (l - m - 2 * k) (m + 2 * k)))).
Lemma frustum_solid z0 h ra rb l m : (0 <= m <= l)%Z -> frustum z0 h ra rb (fun x y z => solid l m x y z) (fr_int z0 h ra rb l m).
Proof.
  intros Hm. assert (RB := regular_frustum z0 h ra rb). destruct (half_range l m Hm) as [Hr Hr'].
  eapply (reg_ext _ RB); [intros x y z; symmetry; apply solid_terms; assumption|].
  apply (reg_zsum _ 0 ((l - m) / 2 + 1) (fun k x y z => dp (A_ x y) (m + k) * dp (B_ x y) k * dp (RtoC z) (l - m - 2 * k)) _ RB); [lia|].
  intros k Hk. unfold frustum.
  assert (G := frustum_mono z0 h ra rb m (m + 2 * k) (l - m - 2 * k) ltac:(lia) ltac:(lia)).
  eapply is_int3_ext; [|apply is_int3_scal; exact G].
  intros p z r. cbv beta. rewrite polar_term by lia. unfold Rdiv at 1. rewrite RtoC_mult. ring.
Qed.
Lemma Phi_0 pc ph : Phi 0 pc ph = RtoC (2 * ph).
Proof.
  unfold Phi, np_sinc. destruct (Req_EM_T (0 * ph / PI) 0) as [_|E]; [|exfalso; apply E; unfold Rdiv; ring].
  rewrite (Rmult_0_l pc), Ropp_0, cexpi_0, Cmult_1_r. f_equal. ring.
Qed.
Lemma Phi_full m : m <> 0%Z -> Phi m PI PI = 0.
Proof.
  intros Hm. unfold Phi, np_sinc. assert (HP := PI_neq0). assert (Hm' : IZR m <> 0%R) by now apply not_0_IZR.
  destruct (Req_EM_T (IZR m * PI / PI) 0) as [E|_]; [exfalso; apply Hm'; rewrite <- E; field; assumption|].
  replace (PI * (IZR m * PI / PI))%R with (IZR m * PI)%R by (field; assumption).
  rewrite (sin_eq_0_1 (IZR m * PI)) by (exists m; reflexivity).
  replace (2 * PI * (0 / (IZR m * PI)))%R with 0%R by (field; split; assumption). ring.
Qed.
Lemma fr_int_off z0 h ra rb l m : m <> 0%Z -> fr_int z0 h ra rb l m = 0.
Proof. intros Hm. apply zsum_0. intros k Hk. rewrite Phi_full by assumption. ring. Qed.
Ltac fr_open := unfold fr_int; rewrite Phi_0; unfold zsum; cbv [Z.div Z.div_eucl Z.pos_div_eucl Z.to_nat Z.of_nat Pos.to_nat Pos.iter_op Nat.add Init.Nat.add Pos.of_succ_nat nsum Z.leb Z.ltb Z.compare Pos.compare Pos.compare_cont Z.geb]; zc;
  unfold fr_z, sgnC; zc; cbv iota; pc; zc; rw_zf; rw_pw.
Lemma fr_volume z0 h ra rb : h <> 0%R -> frustum z0 h ra rb (fun _ _ _ => 1) (RtoC (PI * h * (ra ^ 2 + ra * rb + rb ^ 2) / 3)).
Proof.
  intros Hh. apply (reg_ext _ (regular_frustum z0 h ra rb) (fun x y z => solid 0 0 x y z)).
  { intros x y z. rewrite solid_mono by lia. change ((0 - 0) / 2 + 1)%Z with (0 + 1)%Z. rewrite zsum_one. change (0 + 0 + 1)%Z with (0 + 1)%Z. rewrite !zsum_one.
    unfold coef, mono. zc. unfold sgnC. cbn [Z.even cpow Z.to_nat]. rewrite !pw_0, zfact_0, dp_0. apply C_eq; cbn; field. }
  eapply (reg_val _ _ (fr_int z0 h ra rb 0 0)); [|apply frustum_solid; lia].
  fr_open. apply C_eq; cbn; field; assumption.
Qed.
Ltac fr_calc := apply C_eq; cbn [Cmult Cplus Cminus Copp Cdiv Cinv Ci RtoC fst snd Re Im]; sqsplit.
Ltac piz := let s := fresh "s" in let E := fresh "E" in generalize sPs sPn; generalize (sqrt PI); intros s E; rewrite <- E; clear E; intros ?.
Lemma cone_guard h r1 r2 : (rle h 0 || (req r1 0 && req r2 0))%bool = false -> (0 < h)%R /\ (0 < r1 ^ 2 + r1 * r2 + r2 ^ 2)%R.
Proof.
  intros G. apply Bool.orb_false_elim in G. destruct G as [G1 G2]. apply rle_false in G1. split; [assumption|].
  destruct (Req_dec r2 0) as [->|H2].
  - destruct (Req_dec r1 0) as [->|H1]; [exfalso; revert G2; unfold req; destruct (Req_EM_T 0 0); [discriminate|congruence]|]. assert (0 < r1 ^ 2)%R by (apply pow2_gt_0; assumption). lra.
  - assert (0 < r2 ^ 2)%R by (apply pow2_gt_0; assumption). assert (0 <= (r1 + r2 / 2) ^ 2)%R by apply pow2_ge_0. lra.
Qed.
Definition fr_ii (ok : Z -> Z -> bool) rho z0 h ra rb tab := forall l m, (0 <= m <= l)%Z -> (l <= 5)%Z -> ok l m = true -> tabf tab l m = RtoC rho * (RtoC (nrm l m) * fr_int z0 h ra rb l m).
Lemma fr_body LMax rho z0 h ra rb tab ok : (0 <= LMax)%Z -> tabwf tab = true -> (0 < h)%R -> (0 < ra ^ 2 + ra * rb + rb ^ 2)%R -> fr_ii ok rho z0 h ra rb tab ->
  density_moments ok (ach_finish LMax tab) rho (frustum z0 h ra rb).
Proof.
  intros HL W Hh HS Hi. set (V := (PI * h * (ra ^ 2 + ra * rb + rb ^ 2) / 3)%R). assert (HP := PI_RGT_0).
  assert (HV : (0 < V)%R) by (unfold V; assert (0 < PI * h * (ra ^ 2 + ra * rb + rb ^ 2))%R by (apply Rmult_lt_0_compat; [apply Rmult_lt_0_compat; [exact HP|exact Hh]|exact HS]); lra).
  apply (ach_body _ (fr_int z0 h ra rb) rho V); [assumption|assumption|apply regular_frustum|lra|apply fr_volume; lra| |].
  - intros l m Hm _ _. now apply frustum_solid.
  - intros l m Hm Hl Ho. rewrite (Rabs_pos_eq V) by lra. replace (V / V)%R with 1%R by (field; lra). rewrite Rmult_1_r. now apply Hi.
Qed.
Lemma ach_cone_body LMax rho h r1 r2 q : (0 <= LMax)%Z -> ach_cone LMax rho h r1 r2 = Ok q ->
  deg q = LMax /\ density_moments (but 5 0) q rho (frustum (- h / 2) h r2 r1).
Proof.
  intros HL E. unfold ach_cone in E. destruct (_ || _)%bool eqn:G; [discriminate|]. apply Ok_inj in E. subst q.
  apply cone_guard in G. destruct G as [Gh GS]. assert (Hh : h <> 0%R) by lra. split; [apply deg_ach|].
  apply fr_body; [assumption|reflexivity|assumption|lra|]. unfold fr_ii. clear HL GS LMax.
  apply but_cases. apply lm_cases; cbv [Z.eqb Pos.eqb andb]; cbv iota.
  all: try exact I.
  all: try (rewrite fr_int_off by discriminate; unfold ach_cone_tab; tab_read; ring).
  all: unfold ach_cone_tab; tab_read; rw_nrm; fr_open; fr_calc; piz; field [s2s s3s s5s s7s s11s]; repeat split; ne0.
Qed.
