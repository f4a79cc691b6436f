(* C35-C38 (newt/qlm.py), parts of C11 and C12 *)
From Verif Require Import QlmProofs7.
From Verif Require Import ClebschGordanProofs TranslationsProofs.
From Verif Require Import Cplx.
Open Scope C_scope.

Lemma rle_t x y : (x <= y)%R -> rle x y = true. Proof. unfold rle. destruct (Rle_dec x y); [auto|contradiction]. Qed.
Lemma rle_f x y : (y < x)%R -> rle x y = false. Proof. unfold rle. destruct (Rle_dec x y); [lra|auto]. Qed.
Lemma rlt_t x y : (x < y)%R -> rlt x y = true. Proof. unfold rlt. destruct (Rlt_dec x y); [auto|contradiction]. Qed.
Lemma rlt_f x y : (y <= x)%R -> rlt x y = false. Proof. unfold rlt. destruct (Rlt_dec x y); [lra|auto]. Qed.
Lemma req_t x y : x = y -> req x y = true. Proof. unfold req. destruct (Req_EM_T x y); [auto|contradiction]. Qed.
Lemma req_f x y : x <> y -> req x y = false. Proof. unfold req. destruct (Req_EM_T x y); [contradiction|auto]. Qed.
Lemma is0_f x : x <> 0%R -> is0 x = false. Proof. unfold is0. destruct (Req_EM_T x 0); [contradiction|auto]. Qed.
Lemma is0_t x : x = 0%R -> is0 x = true. Proof. unfold is0. destruct (Req_EM_T x 0); [auto|contradiction]. Qed.
(* decide a guard from hypotheses in the context *)
Ltac guard_t := repeat match goal with H : _ \/ _ |- _ => destruct H as [H|H] end;
  match goal with
  | |- context [rle ?a ?b] => rewrite (rle_t a b) by lra
  | |- context [rlt ?a ?b] => rewrite (rlt_t a b) by lra
  | |- context [req ?a ?b] => rewrite (req_t a b) by lra
  | |- context [(?a <=? ?b)%Z] => rewrite (proj2 (Z.leb_le a b)) by lia
  end;
  rewrite ?Bool.orb_true_r, ?Bool.orb_true_l; reflexivity.
Ltac guard_f := repeat first [rewrite rle_f by lra | rewrite rlt_f by lra | rewrite req_f by (intros ?; lra) | rewrite (proj2 (Z.leb_gt _ _)) by lia]; cbn [orb].

(* ---- C35: sphere, cylinder, annulus, cone ---- *)
Theorem C35_cylinder : forall L mass H Rad, (0 <= L)%Z -> (0 < H)%R -> (0 < Rad)%R ->
  exists q, cylinder L mass H Rad = Ok q /\ deg q = L /\ moments_of_body q mass (solid_cylinder H Rad).
Proof.
  intros L mass H Rad HL HH HR.
  assert (E : exists q, cylinder L mass H Rad = Ok q) by (unfold cylinder; guard_f; eauto).
  destruct E as [q E]. exists q. split; [exact E|]. now apply cylinder_body.
Qed.
Theorem C35_annulus : forall L mass H Ri Ro phic phih, (0 <= L)%Z -> (0 < H)%R -> (0 <= Ri < Ro)%R -> (0 < phih <= PI)%R ->
  exists q, annulus L mass H Ri Ro phic phih = Ok q /\ deg q = L /\ moments_of_body q mass (annular_sector H Ri Ro phic phih).
Proof.
  intros L mass H Ri Ro pc ph HL HH HR Hp.
  assert (E : exists q, annulus L mass H Ri Ro pc ph = Ok q).
  { unfold annulus. guard_f. rewrite is0_f by (assert (0 < (Ro - Ri) * (Ro + Ri))%R by (apply Rmult_lt_0_compat; lra); intros ?; lra). eauto. }
  destruct E as [q E]. exists q. split; [exact E|]. now apply annulus_body.
Qed.
Theorem C35_cone : forall L mass P Rad phic phih, (0 <= L)%Z -> (0 < P)%R -> (0 < Rad)%R -> (0 < phih <= PI)%R ->
  exists q, cone L mass P Rad phic phih = Ok q /\ deg q = L /\ moments_of_body q mass (cone_sector P Rad phic phih).
Proof.
  intros L mass P Rad pc ph HL HH HR Hp.
  assert (E : exists q, cone L mass P Rad pc ph = Ok q) by (unfold cone; guard_f; eauto).
  destruct E as [q E]. exists q. split; [exact E|]. now apply cone_body.
Qed.
Theorem C35_sphere : forall L mass Rad, (0 <= L)%Z -> (0 < Rad)%R ->
  deg (sphere L mass Rad) = L /\ moments_of_body (sphere L mass Rad) mass (solid_ball Rad).
Proof. intros L mass Rad HL HR. apply sphere_body; [assumption|lra]. Qed.
(* the moments of a body are determined by it: there is at most one such array *)
Lemma moments_unique q q' mass B : regular B -> deg q = deg q' -> moments_of_body q mass B -> moments_of_body q' mass B -> same q q'.
Proof.
  intros RB D (V & HV & BV & HI & HC) (V' & HV' & BV' & HI' & HC'). split; [exact D|]. intros l m Hl Hm.
  assert (EV : V = V') by (apply RtoC_inj; apply (reg_unique B RB (fun _ _ _ => 1)); assumption). subst V'.
  destruct (Z_lt_le_dec l (Z.abs m)) as [Hc|Hc]; [rewrite HC, HC' by lia; reflexivity|].
  destruct (HI l m Hl Hc) as (I & H1 & ->). rewrite D in Hl. destruct (HI' l m Hl Hc) as (I' & H2 & ->).
  now rewrite (reg_unique B RB _ _ _ H1 H2).
Qed.
(* a full annulus without hole is the cylinder *)
Theorem C35_annulus_without_hole_is_cylinder : forall L mass H Rad q q', (0 <= L)%Z ->
  cylinder L mass H Rad = Ok q -> annulus L mass H 0 Rad PI PI = Ok q' -> same q q'.
Proof.
  intros L mass H Rad q q' HL E E'. destruct (cylinder_body L mass H Rad q HL E) as [D M]. destruct (annulus_body _ _ _ _ _ _ _ _ HL E') as [D' M'].
  apply (moments_unique q q' mass (solid_cylinder H Rad)); [apply regular_annular|congruence|assumption|assumption].
Qed.
Example C35_case : exists q, annulus 2 3 2 1 2 0 (PI / 4) = Ok q /\ deg q = 2%Z /\ moments_of_body q 3 (annular_sector 2 1 2 0 (PI / 4)).
Proof. assert (H := PI_RGT_0). apply C35_annulus; (lia || lra). Qed.
(* a nontrivial volume integral over the specified solids: the box [-1,1]x[-1,1]x[-1,1] has volume 8 *)
Example C35_spec_volume : annular_sector 2 0 1 PI PI (fun _ _ _ => 1) (RtoC (2 * PI)).
Proof.
  assert (H := PI_RGT_0). eapply reg_val; [|apply annular_volume; lra]. f_equal. ring.
Qed.
Print Assumptions C35_cylinder.
Print Assumptions C35_annulus.
Print Assumptions C35_cone.
Print Assumptions C35_sphere.
Print Assumptions C35_annulus_without_hole_is_cylinder.

(* ---- C36: polyhedral solids ---- *)
Theorem C36_tri_prism : forall L mass H d y1 y2, (0 <= L)%Z -> (0 < H)%R -> d <> 0%R -> y1 <> y2 ->
  exists q, tri_prism L mass H d y1 y2 = Ok q /\ deg q = L /\ moments_of_body q mass (triangular_prism H d y1 y2).
Proof.
  intros L mass H d y1 y2 HL HH Hd Hy.
  assert (E : exists q, tri_prism L mass H d y1 y2 = Ok q) by (unfold tri_prism; rewrite rle_f, !req_f by assumption; cbn [orb]; eauto).
  destruct E as [q E]. exists q. split; [exact E|]. now apply tri_prism_body.
Qed.
Theorem C36_tri_iso_prism : forall L mass H a d phic, (0 <= L)%Z -> (0 < H)%R -> (0 < a)%R -> d <> 0%R ->
  exists q, tri_iso_prism L mass H a d phic = Ok q /\ deg q = L /\ moments_of_body q mass (turned_z phic (triangular_prism H d (- a / 2) (a / 2))).
Proof.
  intros L mass H a d pc HL HH Ha Hd.
  assert (E : exists q, tri_iso_prism L mass H a d pc = Ok q) by (unfold tri_iso_prism; rewrite !rle_f, !req_f by assumption; cbn [orb]; eauto).
  destruct E as [q E]. exists q. split; [exact E|]. now apply tri_iso_prism_body.
Qed.
Theorem C36_tri_iso_prism2 : forall L mass H Rad phic phih, (0 <= L)%Z -> (0 < H)%R -> (0 < Rad)%R -> (0 < phih < PI / 2)%R ->
  exists q, tri_iso_prism2 L mass H Rad phic phih = Ok q /\ deg q = L /\
    moments_of_body q mass (turned_z phic (triangular_prism H (Rad * cos phih) (- (Rad * sin phih)) (Rad * sin phih))).
Proof.
  intros L mass H Rad pc ph HL HH Ha Hd. assert (Hp := PI_RGT_0). assert (Hc : (0 < cos ph)%R) by (apply cos_gt_0; lra).
  assert (E : exists q, tri_iso_prism2 L mass H Rad pc ph = Ok q) by (unfold tri_iso_prism2; guard_f; rewrite is0_f by (intros ?; lra); eauto).
  destruct E as [q E]. exists q. split; [exact E|]. now apply tri_iso_prism2_body.
Qed.
Theorem C36_rect_prism : forall L mass H a b phic, (0 <= L)%Z -> (0 < H)%R -> (0 < a)%R -> (0 < b)%R ->
  exists q, rect_prism L mass H a b phic = Ok q /\ deg q = L /\ moments_of_body q mass (turned_z phic (box H a b)).
Proof.
  intros L mass H a b pc HL HH Ha Hb.
  assert (E : exists q, rect_prism L mass H a b pc = Ok q) by (unfold rect_prism; guard_f; eauto).
  destruct E as [q E]. exists q. split; [exact E|]. now apply rect_prism_body.
Qed.
Theorem C36_ngon_prism : forall L mass H a phic N, (0 <= L)%Z -> (0 < H)%R -> (0 < a)%R -> (3 <= N)%nat ->
  exists q, ngon_prism L mass H a phic (Z.of_nat N) = Ok q /\ deg q = L /\ moments_of_body q mass (regular_prism H a phic N).
Proof.
  intros L mass H a pc N HL HH Ha HN.
  assert (E : exists q, ngon_prism L mass H a pc (Z.of_nat N) = Ok q).
  { unfold ngon_prism. guard_f. eauto. }
  destruct E as [q E]. exists q. split; [exact E|]. rewrite <- (Nat2Z.id N). now apply ngon_body.
Qed.
Theorem C36_tetrahedron : forall L mass x y z, (0 <= L)%Z -> (0 < x)%R -> (0 < y)%R -> (0 < z)%R ->
  exists q, tetrahedron L mass x y z = Ok q /\ deg q = L /\ moments_of_body q mass (corner_tetrahedron x y z).
Proof.
  intros L mass x y z HL Hx Hy Hz.
  assert (E : exists q, tetrahedron L mass x y z = Ok q) by (unfold tetrahedron; guard_f; eauto).
  destruct E as [q E]. exists q. split; [exact E|]. now apply tetrahedron_body.
Qed.
Theorem C36_tetrahedron2 : forall L mass x y1 y2 z, (0 <= L)%Z -> (0 < x)%R -> y1 <> y2 -> (0 < z)%R ->
  exists q, tetrahedron2 L mass x y1 y2 z = Ok q /\ deg q = L /\ moments_of_body q mass (apex_tetrahedron x y1 y2 z).
Proof.
  intros L mass x y1 y2 z HL Hx Hy Hz.
  assert (E : exists q, tetrahedron2 L mass x y1 y2 z = Ok q) by (unfold tetrahedron2; rewrite !rle_f, req_f by assumption; cbn [orb]; eauto).
  destruct E as [q E]. exists q. split; [exact E|]. now apply tetrahedron2_body.
Qed.
Theorem C36_pyramid : forall L mass x y z, (0 <= L)%Z -> (0 < x)%R -> (0 < y)%R -> (0 < z)%R ->
  exists q, pyramid L mass x y z = Ok q /\ deg q = L /\ moments_of_body q mass (rect_pyramid x y z).
Proof.
  intros L mass x y z HL Hx Hy Hz.
  assert (E : exists q, pyramid L mass x y z = Ok q) by (unfold pyramid; guard_f; eauto).
  destruct E as [q E]. exists q. split; [exact E|]. now apply pyramid_body.
Qed.
Example C36_case : exists q, ngon_prism 4 2 1 3 0 6 = Ok q /\ deg q = 4%Z /\ moments_of_body q 2 (regular_prism 1 3 0 6).
Proof. apply (C36_ngon_prism 4 2 1 3 0 6); (lia || lra). Qed.
Example C36_spec_volume : box 2 3 4 (fun _ _ _ => 1) (RtoC 24) /\ rect_pyramid 1 1 3 (fun _ _ _ => 1) (RtoC 4).
Proof.
  split.
  - eapply reg_val; [|apply (mono_000 _ (mu_box 2 3 4)); [apply regular_box|intros; now apply box_mono]]. rewrite box_volume. f_equal. ring.
  - eapply reg_val; [|apply (mono_000 _ (mu_pyr 1 1 3)); [apply regular_pyramid|intros; apply pyr_mono; (assumption || lra)]]. rewrite pyr_volume. f_equal. field.
Qed.
Print Assumptions C36_tri_prism.
Print Assumptions C36_tri_iso_prism.
Print Assumptions C36_tri_iso_prism2.
Print Assumptions C36_rect_prism.
Print Assumptions C36_ngon_prism.
Print Assumptions C36_tetrahedron.
Print Assumptions C36_tetrahedron2.
Print Assumptions C36_pyramid.

(* ---- C11, C12: analytic shapes ---- *)
Lemma body_real q mass B : regular B -> (0 <= deg q)%Z -> moments_of_body q mass B -> reality q /\ corners0 q /\ mom q 0 0 = RtoC (mass / sqrt (4 * PI)).
Proof.
  intros RB HD (V & HV & BV & HI & HC). split; [|split]; [|exact HC|].
  - intros l m Hl Hm. destruct (Z_lt_le_dec l (Z.abs m)) as [Hc|Hc].
    + rewrite !HC by lia. rewrite Cconj_RtoC. ring.
    + destruct (HI l m Hl Hc) as (I & H1 & ->). destruct (HI l (- m)%Z Hl ltac:(lia)) as (I' & H2 & ->).
      assert (E : I' = sgnC m * Cconj I).
      { apply (reg_unique B RB _ _ _ H2). eapply (reg_ext B RB); [|apply (reg_scal B RB (sgnC m) _ _ (reg_conj B RB _ _ H1))].
        intros x y z. cbv beta. now rewrite rsolid_symm. }
      rewrite E, Cconj_mult, Cconj_RtoC. ring.
  - destruct (HI 0%Z 0%Z ltac:(lia) ltac:(lia)) as (I & H1 & ->).
    assert (E : I = RtoC (nrm 0 0) * RtoC V).
    { apply (reg_unique B RB _ _ _ H1). unfold rsolid. apply (reg_scal B RB (RtoC (nrm 0 0)) (fun x y z => solid 0 0 x y z)).
      apply (reg_ext B RB (fun _ _ _ => 1)); [intros; symmetry; apply solid_00|exact BV]. }
    rewrite E, <- !RtoC_mult. f_equal. assert (Hp := PI_RGT_0).
    unfold nrm. change (0 + 0)%Z with 0%Z. change (0 - 0)%Z with 0%Z. rewrite zfact_0. replace ((2 * 0 + 1) * 1 * 1 / (4 * PI))%R with (/ (4 * PI))%R by (field; lra).
    rewrite sqrt_inv. assert (sqrt (4 * PI) <> 0)%R by (apply Rgt_not_eq, sqrt_lt_R0; lra). field. split; assumption.
Qed.
(* every function of qlm.py that produces a moment array, whatever the parameters *)
Inductive qlm_call : Z -> R -> res marr -> Prop :=
| call_sphere L mass Rad : Rad <> 0%R -> qlm_call L mass (Ok (sphere L mass Rad))
| call_cylinder L mass H Rad : qlm_call L mass (cylinder L mass H Rad)
| call_annulus L mass H Ri Ro pc ph : qlm_call L mass (annulus L mass H Ri Ro pc ph)
| call_cone L mass P Rad pc ph : qlm_call L mass (cone L mass P Rad pc ph)
| call_tri_iso_prism L mass H a d pc : qlm_call L mass (tri_iso_prism L mass H a d pc)
| call_tri_iso_prism2 L mass H Rad pc ph : qlm_call L mass (tri_iso_prism2 L mass H Rad pc ph)
| call_tri_prism L mass H d y1 y2 : qlm_call L mass (tri_prism L mass H d y1 y2)
| call_rect_prism L mass H a b pc : qlm_call L mass (rect_prism L mass H a b pc)
| call_ngon_prism L mass H a pc N : qlm_call L mass (ngon_prism L mass H a pc N)
| call_tetrahedron L mass x y z : qlm_call L mass (tetrahedron L mass x y z)
| call_tetrahedron2 L mass x y1 y2 z : qlm_call L mass (tetrahedron2 L mass x y1 y2 z)
| call_pyramid L mass x y z : qlm_call L mass (pyramid L mass x y z).
Lemma qlm_call_body L mass r q : (0 <= L)%Z -> qlm_call L mass r -> r = Ok q -> exists B, regular B /\ deg q = L /\ moments_of_body q mass B.
Proof.
  intros HL HC. destruct HC; intros E.
  - apply Ok_inj in E. subst q. eexists. split; [|apply sphere_body; assumption]. apply regular_ball.
  - eexists. split; [|eapply cylinder_body; eassumption]. apply regular_annular.
  - eexists. split; [|eapply annulus_body; eassumption]. apply regular_annular.
  - eexists. split; [|eapply cone_body; eassumption]. apply regular_cone.
  - eexists. split; [|eapply tri_iso_prism_body; eassumption]. apply regular_turned, regular_tri.
  - eexists. split; [|eapply tri_iso_prism2_body; eassumption]. apply regular_turned, regular_tri.
  - eexists. split; [|eapply tri_prism_body; eassumption]. apply regular_tri.
  - eexists. split; [|eapply rect_prism_body; eassumption]. apply regular_turned, regular_box.
  - eexists. split; [|eapply ngon_body; eassumption]. apply regular_union. intros. apply regular_turned, regular_tri.
  - eexists. split; [|eapply tetrahedron_body; eassumption]. apply regular_corner.
  - eexists. split; [|eapply tetrahedron2_body; eassumption]. apply regular_apex.
  - eexists. split; [|eapply pyramid_body; eassumption]. apply regular_pyramid.
Qed.
Theorem C11_analytic_moments_reality : forall L mass r q, (0 <= L)%Z -> qlm_call L mass r -> r = Ok q ->
  deg q = L /\ reality q /\ corners0 q.
Proof.
  intros L mass r q HL HC E. destruct (qlm_call_body L mass r q HL HC E) as (B & RB & D & M).
  split; [exact D|]. destruct (body_real q mass B RB ltac:(lia) M) as (H1 & H2 & _). now split.
Qed.
Theorem C12_analytic_monopole : forall L mass r q, (0 <= L)%Z -> qlm_call L mass r -> r = Ok q ->
  mom q 0 0 = RtoC (mass / sqrt (4 * PI)).
Proof.
  intros L mass r q HL HC E. destruct (qlm_call_body L mass r q HL HC E) as (B & RB & D & M).
  now destruct (body_real q mass B RB ltac:(lia) M) as (_ & _ & H2).
Qed.
Print Assumptions C11_analytic_moments_reality.
Print Assumptions C12_analytic_monopole.
