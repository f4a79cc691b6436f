(* C39 (newt/qlmACH.py against the volume integrals and against newt/qlm.py), the qlmACH parts of C11, C37, C38 *)
From Coq Require Import FunctionalExtensionality.
From Verif Require Import AchProofs AchProofs2 AchProofs3 AchProofs4 AchProofs5 AchProofs6 AchProofs7 AchProofs8 AchProofs9 Props_Qlm Props_Qlm2.
From Verif Require Import ClebschGordanProofs TranslationsProofs.
From Verif Require Import Cplx.
Open Scope C_scope.

(* the call returns an array of the requested degree holding the moments of B with density rho *)
Definition computes (ok : Z -> Z -> bool) (L : Z) (rho : R) (B : body) (r : res marr) : Prop :=
  exists q, r = Ok q /\ deg q = L /\ density_moments ok q rho B.
Lemma req_and_false x y : (x <> 0 \/ y <> 0)%R -> (req x 0 && req y 0)%bool = false.
Proof. intros [H|H]; rewrite (req_f _ _ H); [reflexivity|apply Bool.andb_false_r]. Qed.

Theorem C39_rect_prism : forall L rho x y z, (0 <= L)%Z -> (0 < x)%R -> (0 < y)%R -> (0 < z)%R ->
  computes every L rho (box z x y) (ach_rect_prism L rho x y z).
Proof.
  intros L rho x y z HL Hx Hy Hz. assert (E : exists q, ach_rect_prism L rho x y z = Ok q) by (unfold ach_rect_prism; guard_f; eauto).
  destruct E as [q E]. exists q. split; [exact E|]. now apply ach_rect_prism_body.
Qed.
(* the guard of annulus lets a negative inner radius pass; the result is meaningful for 0 <= Ri *)
Theorem C39_annulus : forall L rho H Ri Ro phic phih, (0 <= L)%Z -> (0 < H)%R -> (0 <= Ri < Ro)%R -> (0 < phih <= PI)%R ->
  computes every L rho (annular_sector H Ri Ro phic phih) (ach_annulus L rho H Ri Ro phic phih).
Proof.
  intros L rho H Ri Ro pc ph HL HH HR Hp. assert (E : exists q, ach_annulus L rho H Ri Ro pc ph = Ok q) by (unfold ach_annulus; guard_f; eauto).
  destruct E as [q E]. exists q. split; [exact E|]. apply ach_annulus_body; (assumption || lra).
Qed.
(* frustum of height h centred on the origin, radius r2 below and r1 above: every entry but (5,0) *)
Theorem C39_cone : forall L rho h r1 r2, (0 <= L)%Z -> (0 < h)%R -> (r1 <> 0 \/ r2 <> 0)%R ->
  computes (but 5 0) L rho (frustum (- h / 2) h r2 r1) (ach_cone L rho h r1 r2).
Proof.
  intros L rho h r1 r2 HL Hh Hr. assert (E : exists q, ach_cone L rho h r1 r2 = Ok q) by (unfold ach_cone; rewrite req_and_false by assumption; guard_f; eauto).
  destruct E as [q E]. exists q. split; [exact E|]. now apply ach_cone_body.
Qed.
(* frustum standing on the xy plane, radius r1 below and r2 above: every entry but (2,0) *)
Theorem C39_cone2 : forall L rho h r1 r2, (0 <= L)%Z -> (0 < h)%R -> (r1 <> 0 \/ r2 <> 0)%R ->
  computes (but 2 0) L rho (frustum 0 h r1 r2) (ach_cone2 L rho h r1 r2).
Proof.
  intros L rho h r1 r2 HL Hh Hr. assert (E : exists q, ach_cone2 L rho h r1 r2 = Ok q) by (unfold ach_cone2; rewrite req_and_false by assumption; guard_f; eauto).
  destruct E as [q E]. exists q. split; [exact E|]. now apply ach_cone2_body.
Qed.
Theorem C39_tri_prism : forall L rho h d y1 y2, (0 <= L)%Z -> (0 < h)%R -> d <> 0%R -> y1 <> y2 ->
  computes every L rho (triangular_prism h d y1 y2) (ach_tri_prism L rho h d y1 y2).
Proof.
  intros L rho h d y1 y2 HL Hh Hd Hy. assert (E : exists q, ach_tri_prism L rho h d y1 y2 = Ok q) by (unfold ach_tri_prism; rewrite rle_f, !req_f by assumption; cbn [orb]; eauto).
  destruct E as [q E]. exists q. split; [exact E|]. now apply ach_tri_prism_body.
Qed.
(* every entry but (4,4) *)
Theorem C39_trapezoid : forall L rho t w1 w2 h, (0 <= L)%Z -> (0 < t)%R -> (0 <= w1)%R -> (0 <= w2)%R -> (0 < w1 + w2)%R -> (0 < h)%R ->
  computes (but 4 4) L rho (trapezoidal_plate t w1 w2 h) (ach_trapezoid L rho t w1 w2 h).
Proof.
  intros L rho t w1 w2 h HL Ht H1 H2 H0 Hh. assert (E : exists q, ach_trapezoid L rho t w1 w2 h = Ok q) by (unfold ach_trapezoid; guard_f; rewrite is0_f by (intros ?; lra); eauto).
  destruct E as [q E]. exists q. split; [exact E|]. now apply ach_trapezoid_body.
Qed.
Theorem C39_cylindrical_section : forall L rho t r d, (0 <= L)%Z -> (0 < t)%R -> (0 < d < r)%R ->
  computes every L rho (cylinder_segment t r d) (ach_cylindrical_section L rho t r d).
Proof.
  intros L rho t r d HL Ht Hd. assert (E : exists q, ach_cylindrical_section L rho t r d = Ok q) by (unfold ach_cylindrical_section; guard_f; eauto).
  destruct E as [q E]. exists q. split; [exact E|]. now apply ach_cylindrical_section_body.
Qed.
Theorem C39_tetrahedron : forall L rho x y z, (0 <= L)%Z -> (0 < x)%R -> (0 < y)%R -> (0 < z)%R ->
  computes every L rho (corner_tetrahedron x y z) (ach_tetrahedron L rho x y z).
Proof.
  intros L rho x y z HL Hx Hy Hz. assert (E : exists q, ach_tetrahedron L rho x y z = Ok q) by (unfold ach_tetrahedron; guard_f; eauto).
  destruct E as [q E]. exists q. split; [exact E|]. now apply ach_tetrahedron_body.
Qed.
Theorem C39_platehole : forall L rho t r theta, (0 <= L)%Z -> (0 < t)%R -> (0 < r)%R -> (Rabs theta < PI / 2)%R ->
  computes every L rho (slanted_hole t r theta) (ach_platehole L rho t r theta).
Proof.
  intros L rho t r th HL Ht Hr Hth. assert (Hc : (0 < cos th)%R) by (apply Rabs_def2 in Hth; apply cos_gt_0; lra).
  assert (E : exists q, ach_platehole L rho t r th = Ok q) by (unfold ach_platehole; guard_f; rewrite is0_f by (intros ?; lra); eauto).
  destruct E as [q E]. exists q. split; [exact E|]. now apply ach_platehole_body.
Qed.
(* the base is x by y: half the side lengths that qlm.pyramid takes *)
Theorem C39_pyramid : forall L rho h x y, (0 <= L)%Z -> (0 < x)%R -> (0 < y)%R -> (0 < h)%R ->
  computes every L rho (rect_pyramid (x / 2) (y / 2) h) (ach_pyramid L rho h x y).
Proof.
  intros L rho h x y HL Hx Hy Hz. assert (E : exists q, ach_pyramid L rho h x y = Ok q) by (unfold ach_pyramid; guard_f; eauto).
  destruct E as [q E]. exists q. split; [exact E|]. now apply ach_pyramid_body.
Qed.
Example C39_cases : computes every 7 2 (box 3 1 2) (ach_rect_prism 7 2 1 2 3) /\
  computes (but 2 0) 3 2 (frustum 0 1 2 1) (ach_cone2 3 2 1 2 1) /\
  computes every 5 1 (slanted_hole 1 2 (PI / 4)) (ach_platehole 5 1 1 2 (PI / 4)).
Proof.
  assert (Hp := PI_RGT_0). split; [|split].
  - apply C39_rect_prism; (lia || lra).
  - apply C39_cone2; try (lia || lra).
  - apply C39_platehole; try (lia || lra). rewrite Rabs_right by lra. lra.
Qed.

(* ---- the three wrong entries ---- *)
(* entry (l,m), m >= 0, of the result is the true moment of B less err *)
Definition off_by (q : marr) (rho : R) (B : body) (l m : Z) (err : R) : Prop :=
  exists I, B (fun x y z => rsolid l m (x, y, z)) I /\ mom q l m = RtoC rho * I - RtoC err.
Lemma off_nonzero q rho B l m err : regular B -> err <> 0%R -> off_by q rho B l m err ->
  ~ exists I, B (fun x y z => rsolid l m (x, y, z)) I /\ mom q l m = RtoC rho * I.
Proof.
  intros RB He (I & HI & E) (J & HJ & F). assert (I = J) by (eapply (reg_unique B RB); eassumption). subst J.
  apply He. rewrite E in F. apply RtoC_inj. transitivity (RtoC rho * I - (RtoC rho * I - RtoC err)); [ring|]. rewrite F. ring.
Qed.
Theorem C39_trapezoid_44 : forall L rho t w1 w2 h q, (4 <= L)%Z -> ach_trapezoid L rho t w1 w2 h = Ok q ->
  let w := ((w1 + w2) / 2)%R in
  off_by q rho (trapezoidal_plate t w1 w2 h) 4 4 (rho * h * t * w * sqrt 7 * (48 * h ^ 4 - 40 * h ^ 2 * w ^ 2 + 3 * w ^ 4) / (128 * sqrt 10 * sqrt PI)).
Proof.
  intros L rho t w1 w2 h q HL E w. apply ach_trapezoid_guard in E. destruct E as (Gh & Gt & G1 & G2 & G0 & ->).
  exists (RtoC (nrm 4 4) * mono_int (mu_trap t w1 w2 h) 4 4). split.
  - assert (RB := regular_trap t w1 w2 h). apply (reg_scal _ RB (RtoC (nrm 4 4)) (fun x y z => solid 4 4 x y z)).
    apply mono_solid5; [assumption| |lia]. intros. now apply trap_mono.
  - rewrite ach_entry by (reflexivity || lia). cbn [Z.eqb]. apply ach_trapezoid_44; intros ?; lra.
Qed.
Lemma frustum_rsolid z0 h ra rb l : (0 <= l)%Z -> frustum z0 h ra rb (fun x y z => rsolid l 0 (x, y, z)) (RtoC (nrm l 0) * fr_int z0 h ra rb l 0).
Proof.
  intros Hl. assert (RB := regular_frustum z0 h ra rb). apply (reg_scal _ RB (RtoC (nrm l 0)) (fun x y z => solid l 0 x y z)).
  apply frustum_solid. lia.
Qed.
Lemma real0 (B : body) l I : regular B -> B (fun x y z => rsolid l 0 (x, y, z)) I -> RtoC (Re I) = I.
Proof.
  intros RB HI. assert (R0 : Cconj I = I).
  { apply (reg_unique B RB (fun x y z => rsolid l 0 (x, y, z))); [|exact HI].
    eapply (reg_ext B RB); [|apply (reg_conj B RB _ _ HI)]. intros x y z. cbv beta. assert (G := VInt.rsolid_symm l 0 x y z). change (- 0)%Z with 0%Z in G. rewrite sgnC_0 in G. rewrite G at 2. ring. }
  apply Cconj_fix_real in R0. destruct I as [i0 i1]. unfold Im in R0. cbn in R0. subst i1. reflexivity.
Qed.
Lemma re_off rho (I : C) err : RtoC (Re I) = I -> RtoC (Re (RtoC rho * I - RtoC err)) = RtoC rho * I - RtoC err.
Proof. intros H. rewrite <- H. apply C_eq; cbn; ring. Qed.
Theorem C39_cone_50 : forall L rho h r1 r2 q, (5 <= L)%Z -> ach_cone L rho h r1 r2 = Ok q ->
  off_by q rho (frustum (- h / 2) h r2 r1) 5 0 (5 * sqrt 11 * sqrt PI / 448 * rho * h ^ 2 * (r1 ^ 2 - r2 ^ 2) * (r1 ^ 2 * r2) * (r1 - 1)).
Proof.
  intros L rho h r1 r2 q HL E. unfold ach_cone in E. destruct (_ || _)%bool eqn:G; [discriminate|]. apply Ok_inj in E. subst q.
  apply cone_guard in G. destruct G as [Gh GS]. assert (HF := frustum_rsolid (- h / 2) h r2 r1 5 ltac:(lia)).
  eexists. split; [exact HF|]. rewrite ach_entry by (reflexivity || lia). cbn [Z.eqb]. rewrite ach_cone_50 by (intros ?; lra).
  apply re_off. eapply real0; [apply regular_frustum|exact HF].
Qed.
Theorem C39_cone2_20 : forall L rho h r1 r2 q, (2 <= L)%Z -> ach_cone2 L rho h r1 r2 = Ok q ->
  off_by q rho (frustum 0 h r1 r2) 2 0 (sqrt PI / (8 * sqrt 5) * rho * h * (r1 ^ 2 * r2) * (r1 + 2 * r2)).
Proof.
  intros L rho h r1 r2 q HL E. unfold ach_cone2 in E. destruct (_ || _)%bool eqn:G; [discriminate|]. apply Ok_inj in E. subst q.
  apply cone_guard in G. destruct G as [Gh GS]. assert (HF := frustum_rsolid 0 h r1 r2 2 ltac:(lia)).
  eexists. split; [exact HF|]. rewrite ach_entry by (reflexivity || lia). cbn [Z.eqb]. rewrite ach_cone2_20 by (intros ?; lra).
  apply re_off. eapply real0; [apply regular_frustum|exact HF].
Qed.
(* the quadrupole of every genuine frustum (both radii positive, nonzero density) is wrong *)
Theorem C39_cone2_20_wrong : forall L rho h r1 r2 q, (2 <= L)%Z -> rho <> 0%R -> (0 < r1)%R -> (0 < r2)%R -> ach_cone2 L rho h r1 r2 = Ok q ->
  ~ exists I, frustum 0 h r1 r2 (fun x y z => rsolid 2 0 (x, y, z)) I /\ mom q 2 0 = RtoC rho * I.
Proof.
  intros L rho h r1 r2 q HL Hr H1 H2 E. eapply off_nonzero; [apply regular_frustum| |eapply C39_cone2_20; eassumption].
  unfold ach_cone2 in E. destruct (_ || _)%bool eqn:G; [discriminate|]. apply cone_guard in G. destruct G as [Gh _].
  assert (HP := PI_RGT_0). assert (sqrt PI <> 0%R) by (apply sq_ne; lra). assert (sqrt 5 <> 0%R) by (apply sq_ne; lra).
  assert (0 < r1 ^ 2)%R by (apply pow_lt; assumption).
  unfold Rdiv. nz.
Qed.
(* the l = 5 moment of cone is right only when r1 = r2, r2 = 0, r1 = 0, r1 = 1 or r1 = -r2 *)
Theorem C39_cone_50_wrong : forall L rho h r1 r2 q, (5 <= L)%Z -> rho <> 0%R -> (0 < r1)%R -> (0 < r2)%R -> r1 <> r2 -> r1 <> 1%R -> ach_cone L rho h r1 r2 = Ok q ->
  ~ exists I, frustum (- h / 2) h r2 r1 (fun x y z => rsolid 5 0 (x, y, z)) I /\ mom q 5 0 = RtoC rho * I.
Proof.
  intros L rho h r1 r2 q HL Hr H1 H2 H12 H3 E. eapply off_nonzero; [apply regular_frustum| |eapply C39_cone_50; eassumption].
  unfold ach_cone in E. destruct (_ || _)%bool eqn:G; [discriminate|]. apply cone_guard in G. destruct G as [Gh _].
  assert (HP := PI_RGT_0). assert (sqrt PI <> 0%R) by (apply sq_ne; lra). assert (sqrt 11 <> 0%R) by (apply sq_ne; lra).
  assert (0 < r1 ^ 2)%R by (apply pow_lt; assumption).
  assert (0 < h ^ 2)%R by (apply pow_lt; assumption).
  assert (r1 ^ 2 - r2 ^ 2 <> 0)%R. { intros F. assert (FF : ((r1 - r2) * (r1 + r2) = 0)%R) by lra. apply Rmult_integral in FF. destruct FF; [apply H12; lra|lra]. }
  assert (r1 - 1 <> 0)%R by (intros ?; apply H3; lra).
  unfold Rdiv. nz.
Qed.
(* a square plate of side 1: the (4,4) moment is wrong *)
Theorem C39_trapezoid_44_wrong : forall L rho t w h q, (4 <= L)%Z -> rho <> 0%R -> (48 * h ^ 4 - 40 * h ^ 2 * w ^ 2 + 3 * w ^ 4 <> 0)%R -> ach_trapezoid L rho t w w h = Ok q ->
  ~ exists I, trapezoidal_plate t w w h (fun x y z => rsolid 4 4 (x, y, z)) I /\ mom q 4 4 = RtoC rho * I.
Proof.
  intros L rho t w h q HL Hr H0 E. eapply off_nonzero; [apply regular_trap| |eapply C39_trapezoid_44; eassumption].
  apply ach_trapezoid_guard in E. destruct E as (Gh & Gt & G1 & G2 & G0 & _).
  assert (HP := PI_RGT_0). assert (sqrt PI <> 0%R) by (apply sq_ne; lra). assert (sqrt 10 <> 0%R) by (apply sq_ne; lra). assert (sqrt 7 <> 0%R) by (apply sq_ne; lra).
  replace ((w + w) / 2)%R with w by field. unfold Rdiv. nz.
Qed.

Example C39_wrong_case : exists q, ach_cone2 2 1 1 1 1 = Ok q /\ ~ exists I, frustum 0 1 1 1 (fun x y z => rsolid 2 0 (x, y, z)) I /\ mom q 2 0 = RtoC 1 * I.
Proof.
  destruct (C39_cone2 2 1 1 1 1) as (q & E & _); try (lia || lra). exists q. split; [exact E|]. eapply C39_cone2_20_wrong; try exact E; (lia || lra).
Qed.

(* ---- agreement with qlm.py: the same solid with mass = density * volume ---- *)
Definition agree5 (q q' : marr) : Prop :=
  deg q = deg q' /\ forall l m, (0 <= l <= deg q)%Z -> (l <= 5)%Z -> (Z.abs m <= deg q)%Z -> mom q l m = mom q' l m.
Lemma agree_from q q' rho mass B V : regular B -> B (fun _ _ _ => 1) (RtoC V) -> mass = (rho * Rabs V)%R ->
  deg q = deg q' -> density_moments every q rho B -> moments_of_body q' mass B -> agree5 q q'.
Proof.
  intros RB BV -> D (V1 & N1 & B1 & H1 & _ & C1) (V2 & N2 & B2 & H2 & C2). split; [exact D|].
  assert (V1 = V) by (apply RtoC_inj; eapply (reg_unique B RB); eassumption). assert (V2 = V) by (apply RtoC_inj; eapply (reg_unique B RB); eassumption). subst V1 V2.
  intros l m Hl Hl5 Hm. destruct (Z.leb_spec (Z.abs m) l) as [Hml|Hml].
  - destruct (H1 l m ltac:(lia) Hl5 Hml eq_refl) as (I & HI & E). destruct (H2 l m ltac:(lia) Hml) as (J & HJ & F).
    assert (I = J) by (eapply (reg_unique B RB); eassumption). subst J. rewrite E, F. do 2 f_equal. field. assumption.
  - rewrite C1, C2 by (rewrite <- ?D; lia). reflexivity.
Qed.
Lemma unturned (B : body) q mass : regular B -> moments_of_body q mass (turned_z 0 B) -> moments_of_body q mass B.
Proof.
  intros RB (V & N & BV & H & K). exists V. split; [exact N|]. split; [exact BV|]. split; [|exact K].
  intros l m Hl Hm. destruct (H l m Hl Hm) as (I & HI & E). exists I. split; [|exact E].
  unfold turned_z in HI. eapply (reg_ext B RB); [|exact HI]. intros x y z. cbv beta. rewrite cos_0, sin_0. do 2 f_equal; f_equal; ring.
Qed.
Theorem C39_rect_prism_agrees : forall L rho x y z q q', (0 <= L)%Z ->
  ach_rect_prism L rho x y z = Ok q -> rect_prism L (rho * (x * y * z)) z x y 0 = Ok q' -> agree5 q q'.
Proof.
  intros L rho x y z q q' HL E E'. destruct (ach_rect_prism_body _ _ _ _ _ _ HL E) as [D M]. destruct (rect_prism_body _ _ _ _ _ _ _ HL E') as [D' M'].
  apply unturned in M'; [|apply regular_box].
  apply (agree_from _ _ rho (rho * (x * y * z)) (box z x y) (z * x * y)); try assumption; [apply regular_box| | |congruence].
  - rewrite <- box_volume. apply mono_000; [apply regular_box|intros; now apply box_mono].
  - unfold ach_rect_prism in E. destruct (_ || _)%bool eqn:G; [discriminate|]. opens.
    rewrite Rabs_right; [ring|]. assert (0 < z * x * y)%R by (repeat apply Rmult_lt_0_compat; assumption). lra.
Qed.
Theorem C39_annulus_agrees : forall L rho H Ri Ro phic phih q q', (0 <= L)%Z -> (0 <= Ri)%R ->
  ach_annulus L rho H Ri Ro phic phih = Ok q -> annulus L (rho * (H * (Ro ^ 2 - Ri ^ 2) * phih)) H Ri Ro phic phih = Ok q' -> agree5 q q'.
Proof.
  intros L rho H Ri Ro pc ph q q' HL HR E E'.
  assert (G := E). unfold ach_annulus in G. destruct (_ || _)%bool eqn:G0; [discriminate|]. clear G. opens.
  destruct (ach_annulus_body _ _ _ _ _ _ _ _ HL E ltac:(lra)) as [D M]. destruct (annulus_body _ _ _ _ _ _ _ _ HL E') as [D' M'].
  eapply (agree_from _ _ rho _ (annular_sector H Ri Ro pc ph) (H * (Ro ^ 2 - Ri ^ 2) * ph)); try eassumption; [apply regular_annular| | |congruence].
  - apply annular_volume. intros ?; lra.
  - rewrite Rabs_right; [ring|]. replace (Ro ^ 2 - Ri ^ 2)%R with ((Ro - Ri) * (Ro + Ri))%R by ring.
    assert (0 < H * ((Ro - Ri) * (Ro + Ri)) * ph)%R by (repeat apply Rmult_lt_0_compat; lra). lra.
Qed.
Theorem C39_tri_prism_agrees : forall L rho h d y1 y2 q q', (0 <= L)%Z ->
  ach_tri_prism L rho h d y1 y2 = Ok q -> tri_prism L (rho * Rabs (h * d * (y2 - y1) / 2)) h d y1 y2 = Ok q' -> agree5 q q'.
Proof.
  intros L rho h d y1 y2 q q' HL E E'. destruct (ach_tri_prism_body _ _ _ _ _ _ _ HL E) as [D M]. destruct (tri_prism_body _ _ _ _ _ _ _ HL E') as [D' M'].
  assert (G := E). unfold ach_tri_prism in G. destruct (_ || _)%bool eqn:G0; [discriminate|]. clear G. opens.
  eapply (agree_from _ _ rho _ (triangular_prism h d y1 y2) (h * d * (y2 - y1) / 2)); try eassumption; [apply regular_tri| |reflexivity|congruence].
  rewrite <- tri_volume. apply mono_000; [apply regular_tri|intros; now apply tri_mono].
Qed.
Theorem C39_tetrahedron_agrees : forall L rho x y z q q', (0 <= L)%Z ->
  ach_tetrahedron L rho x y z = Ok q -> tetrahedron L (rho * (x * y * z / 6)) x y z = Ok q' -> agree5 q q'.
Proof.
  intros L rho x y z q q' HL E E'. destruct (ach_tetrahedron_body _ _ _ _ _ _ HL E) as [D M]. destruct (tetrahedron_body _ _ _ _ _ _ HL E') as [D' M'].
  assert (G := E). unfold ach_tetrahedron in G. destruct (_ || _)%bool eqn:G0; [discriminate|]. clear G. opens.
  eapply (agree_from _ _ rho _ (corner_tetrahedron x y z) (x * y * z / 6)); try eassumption; [apply regular_corner| | |congruence].
  - rewrite <- corner_volume. apply mono_000; [apply regular_corner|intros; apply corner_mono; (assumption || (intros ?; lra))].
  - rewrite Rabs_right; [ring|]. assert (0 < x * y * z)%R by (repeat apply Rmult_lt_0_compat; assumption). lra.
Qed.
(* qlm.pyramid takes the half side lengths *)
Theorem C39_pyramid_agrees : forall L rho h x y q q', (0 <= L)%Z ->
  ach_pyramid L rho h x y = Ok q -> pyramid L (rho * (x * y * h / 3)) (x / 2) (y / 2) h = Ok q' -> agree5 q q'.
Proof.
  intros L rho h x y q q' HL E E'. destruct (ach_pyramid_body _ _ _ _ _ _ HL E) as [D M]. destruct (pyramid_body _ _ _ _ _ _ HL E') as [D' M'].
  assert (G := E). unfold ach_pyramid in G. destruct (_ || _)%bool eqn:G0; [discriminate|]. clear G. opens.
  eapply (agree_from _ _ rho _ (rect_pyramid (x / 2) (y / 2) h) (4 * (x / 2) * (y / 2) * h / 3)); try eassumption; [apply regular_pyramid| | |congruence].
  - rewrite <- pyr_volume. apply mono_000; [apply regular_pyramid|intros; apply pyr_mono; (assumption || (intros ?; lra))].
  - rewrite Rabs_right; [field|]. assert (0 < x * y * h)%R by (repeat apply Rmult_lt_0_compat; assumption). lra.
Qed.
(* a pointed cone: here cone2's quadrupole is right as well *)
Lemma frustum_is_cone h r : frustum 0 h r 0 = cone_sector h r PI PI.
Proof.
  unfold frustum, cone_sector. apply functional_extensionality. intros f. apply functional_extensionality. intros I.
  replace (PI - PI)%R with 0%R by ring. replace (PI + PI)%R with (2 * PI)%R by ring. replace (fun _ : R => (0 + h)%R) with (fun _ : R => h) by (apply functional_extensionality; intros; ring).
  f_equal. apply functional_extensionality. intros a. apply functional_extensionality. intros z. unfold Rdiv. ring.
Qed.
Theorem C39_cone2_agrees_with_cone : forall L rho h r q q', (0 <= L)%Z -> r <> 0%R ->
  ach_cone2 L rho h r 0 = Ok q -> cone L (rho * (PI * h * r ^ 2 / 3)) h r PI PI = Ok q' -> agree5 q q'.
Proof.
  intros L rho h r q q' HL Hr E E'. destruct (ach_cone2_body _ _ _ _ _ _ HL E) as [D (V & NV & BV & HM & HZ & HC)]. destruct (cone_body _ _ _ _ _ _ _ HL E') as [D' M'].
  assert (G := E). unfold ach_cone2 in G. destruct (_ || _)%bool eqn:G0; [discriminate|]. clear G. apply cone_guard in G0. destruct G0 as [Gh GS].
  assert (FV := fr_volume 0 h r 0 ltac:(intros ?; lra)). assert (EV : V = (PI * h * (r ^ 2 + r * 0 + 0 ^ 2) / 3)%R) by (apply RtoC_inj; exact (reg_unique _ (regular_frustum 0 h r 0) _ _ _ BV FV)).
  assert (Hp := PI_RGT_0). assert (PV : (0 < V)%R). { rewrite EV. assert (0 < PI * h * (r ^ 2 + r * 0 + 0 ^ 2))%R by (apply Rmult_lt_0_compat; [apply Rmult_lt_0_compat|]; assumption). lra. }
  eapply (agree_from _ _ rho _ (cone_sector h r PI PI) V); try eassumption.
  - apply regular_cone.
  - now rewrite <- frustum_is_cone.
  - rewrite Rabs_right by lra. rewrite EV. f_equal. f_equal. ring.
  - congruence.
  - exists V. split; [exact NV|]. rewrite <- frustum_is_cone. split; [exact BV|]. split; [|split; assumption].
    intros l m Hl Hl5 Hm _. destruct (but 2 0 l (Z.abs m)) eqn:Eb; [now apply HM|].
    unfold but in Eb. apply Bool.negb_false_iff, andb_prop in Eb. destruct Eb as [El Em]. apply Z.eqb_eq in El, Em. assert (m = 0)%Z by lia. subst l m.
    destruct (C39_cone2_20 L rho h r 0 q ltac:(lia) E) as (I & HI & EE). exists I. split; [exact HI|]. rewrite EE.
    replace (sqrt PI / (8 * sqrt 5) * rho * h * (r ^ 2 * 0) * (r + 2 * 0))%R with 0%R by ring. rewrite Rabs_right by lra. replace (rho * (V / V))%R with rho by (field; lra). ring.
Qed.

(* ---- C37: guards ---- *)
Ltac ach_ok := eexists; split; [reflexivity|apply deg_ach].
Theorem C37_ach_rect_prism : forall L rho x y z, (0 <= L)%Z -> guarded L (x <= 0 \/ y <= 0 \/ z <= 0)%R (ach_rect_prism L rho x y z).
Proof. intros. split; intros G; unfold ach_rect_prism; [guard_t|nots; guard_f; ach_ok]. Qed.
(* a negative inner radius is not rejected *)
Theorem C37_ach_annulus : forall L rho H Ri Ro phic phih, (0 <= L)%Z -> guarded L (Ro <= Ri \/ Ro <= 0 \/ H <= 0 \/ PI < phih \/ phih <= 0)%R (ach_annulus L rho H Ri Ro phic phih).
Proof. intros. split; intros G; unfold ach_annulus; [guard_t|nots; guard_f; ach_ok]. Qed.
Lemma both_zero r1 r2 : (r1 = 0 /\ r2 = 0)%R -> (req r1 0 && req r2 0)%bool = true.
Proof. intros [-> ->]. now rewrite req_t. Qed.
Lemma not_both r1 r2 : ~ (r1 = 0 /\ r2 = 0)%R -> (r1 <> 0 \/ r2 <> 0)%R.
Proof. intros H. destruct (Req_dec r1 0); [right|left]; tauto. Qed.
(* negative radii are not rejected *)
Theorem C37_ach_cone : forall L rho h r1 r2, (0 <= L)%Z -> guarded L (h <= 0 \/ (r1 = 0 /\ r2 = 0))%R (ach_cone L rho h r1 r2) /\ guarded L (h <= 0 \/ (r1 = 0 /\ r2 = 0))%R (ach_cone2 L rho h r1 r2).
Proof.
  intros L rho h r1 r2 HL. split; split; intros G; unfold ach_cone, ach_cone2.
  1,3: destruct G as [G|G]; [rewrite rle_t by assumption; reflexivity|rewrite (both_zero r1 r2 G), Bool.orb_true_r; reflexivity].
  all: apply Decidable.not_or in G; destruct G as [G1 G2]; apply not_both in G2; rewrite req_and_false by assumption; guard_f; ach_ok.
Qed.
Theorem C37_ach_tri_prism : forall L rho h d y1 y2, (0 <= L)%Z -> guarded L (h <= 0 \/ d = 0 \/ y1 = y2)%R (ach_tri_prism L rho h d y1 y2).
Proof. intros. split; intros G; unfold ach_tri_prism; [guard_t|nots; rewrite rle_f, !req_f by (assumption || lra); ach_ok]. Qed.
(* two zero widths pass the guard and are divided by *)
Theorem C37_ach_trapezoid : forall L rho t w1 w2 h, (0 <= L)%Z ->
  let bad := (h <= 0 \/ t <= 0 \/ w1 < 0 \/ w2 < 0)%R in
  (bad -> ach_trapezoid L rho t w1 w2 h = Err ValueError) /\
  (~ bad -> w1 = 0%R -> w2 = 0%R -> ach_trapezoid L rho t w1 w2 h = Err NotFinite) /\
  (~ bad -> (w1 <> 0 \/ w2 <> 0)%R -> accepts L (ach_trapezoid L rho t w1 w2 h)).
Proof.
  intros L rho t w1 w2 h HL bad. unfold bad. split; [|split]; intros G; unfold ach_trapezoid.
  - guard_t.
  - intros -> ->. nots. guard_f. rewrite is0_t by field. reflexivity.
  - intros W. nots. guard_f. rewrite is0_f; [ach_ok|]. intros E. destruct W as [W|W]; apply W; lra.
Qed.
Theorem C37_ach_cylindrical_section : forall L rho t r d, (0 <= L)%Z -> guarded L (d <= 0 \/ r <= d \/ t <= 0)%R (ach_cylindrical_section L rho t r d).
Proof. intros. split; intros G; unfold ach_cylindrical_section; [guard_t|nots; guard_f; ach_ok]. Qed.
Theorem C37_ach_tetrahedron : forall L rho x y z, (0 <= L)%Z -> guarded L (x <= 0 \/ y <= 0 \/ z <= 0)%R (ach_tetrahedron L rho x y z).
Proof. intros. split; intros G; unfold ach_tetrahedron; [guard_t|nots; guard_f; ach_ok]. Qed.
Theorem C37_ach_cylhole : forall F Fe Fk L rho r Rad, (0 <= L)%Z ->
  guarded L (r <= 0 \/ Rad < r)%R (ach_cylhole F L rho r Rad) /\ guarded L (r <= 0 \/ Rad < r)%R (ach_cylhole2 Fe Fk L rho r Rad).
Proof. intros. split; split; intros G; unfold ach_cylhole, ach_cylhole2; try guard_t; nots; guard_f; ach_ok. Qed.
Theorem C37_ach_pyramid : forall L rho h x y, (0 <= L)%Z -> guarded L (x <= 0 \/ y <= 0 \/ h <= 0)%R (ach_pyramid L rho h x y).
Proof. intros. split; intros G; unfold ach_pyramid; [guard_t|nots; guard_f; ach_ok]. Qed.
(* a hole parallel to the plate passes the guard although its tangent does not exist *)
Theorem C37_ach_platehole : forall L rho t r theta, (0 <= L)%Z ->
  let bad := (r <= 0 \/ t <= 0 \/ PI / 2 < Rabs theta)%R in
  (bad -> ach_platehole L rho t r theta = Err ValueError) /\
  (~ bad -> Rabs theta = (PI / 2)%R -> ach_platehole L rho t r theta = Err NotFinite) /\
  (~ bad -> Rabs theta <> (PI / 2)%R -> accepts L (ach_platehole L rho t r theta)).
Proof.
  intros L rho t r th HL bad. unfold bad. assert (Hp := PI_RGT_0). split; [|split]; intros G; unfold ach_platehole.
  - guard_t.
  - intros E. nots. guard_f. rewrite is0_t; [reflexivity|]. unfold Rabs in E. destruct (Rcase_abs th).
    + replace th with (- (PI / 2))%R by lra. rewrite cos_neg. apply cos_PI2.
    + rewrite E. apply cos_PI2.
  - intros W. nots. guard_f. assert (Hth : (Rabs th < PI / 2)%R) by lra. apply Rabs_def2 in Hth.
    assert (0 < cos th)%R by (apply cos_gt_0; lra). rewrite is0_f by (intros ?; lra). ach_ok.
Qed.

(* ---- C11: reality for every function of qlmACH.py ---- *)
Inductive ach_call : Z -> res marr -> Prop :=
| ach_call_rect L rho x y z : ach_call L (ach_rect_prism L rho x y z)
| ach_call_annulus L rho H Ri Ro pc ph : ach_call L (ach_annulus L rho H Ri Ro pc ph)
| ach_call_cone L rho h r1 r2 : ach_call L (ach_cone L rho h r1 r2)
| ach_call_cone2 L rho h r1 r2 : ach_call L (ach_cone2 L rho h r1 r2)
| ach_call_tri L rho h d y1 y2 : ach_call L (ach_tri_prism L rho h d y1 y2)
| ach_call_trap L rho t w1 w2 h : ach_call L (ach_trapezoid L rho t w1 w2 h)
| ach_call_seg L rho t r d : ach_call L (ach_cylindrical_section L rho t r d)
| ach_call_tetra L rho x y z : ach_call L (ach_tetrahedron L rho x y z)
| ach_call_cylhole F L rho r Rad : ach_call L (ach_cylhole F L rho r Rad)
| ach_call_cylhole2 Fe Fk L rho r Rad : ach_call L (ach_cylhole2 Fe Fk L rho r Rad)
| ach_call_platehole L rho t r th : ach_call L (ach_platehole L rho t r th)
| ach_call_pyramid L rho h x y : ach_call L (ach_pyramid L rho h x y).
Lemma ach_call_tab L r q : ach_call L r -> r = Ok q -> exists tab, tabwf tab = true /\ q = ach_finish L tab.
Proof.
  intros H. destruct H; intros E;
  unfold ach_rect_prism, ach_annulus, ach_cone, ach_cone2, ach_tri_prism, ach_trapezoid, ach_cylindrical_section, ach_tetrahedron, ach_cylhole, ach_cylhole2, ach_platehole, ach_pyramid in E;
  destruct (_ || _)%bool; try discriminate E; try (destruct (is0 _); [discriminate E|]); apply Ok_inj in E; subst q; eexists; split; try reflexivity; reflexivity.
Qed.
Theorem C11_qlmACH_reality : forall L r q, (0 <= L)%Z -> ach_call L r -> r = Ok q -> deg q = L /\ reality q /\ corners0 q.
Proof.
  intros L r q HL HC E. destruct (ach_call_tab L r q HC E) as (tab & W & ->). split; [apply deg_ach|]. now apply ach_reality.
Qed.
(* rows above 5 are zero even when the true moments are not *)
Theorem C39_rows_above_5_are_zero : forall L r q l m, (0 <= L)%Z -> ach_call L r -> r = Ok q -> (5 < l <= L)%Z -> (Z.abs m <= L)%Z -> mom q l m = 0.
Proof.
  intros L r q l m HL HC E Hl Hm. destruct (ach_call_tab L r q HC E) as (tab & W & ->). now apply ach_zero.
Qed.

(* ---- C38: scaling every length by s at fixed density multiplies q_lm by s^(l+3) ---- *)
Definition scales_for (ok : Z -> Z -> bool) (s : R) (r r' : res marr) : Prop :=
  match r, r' with
  | Ok q, Ok q' => deg q' = deg q /\ forall l m, (0 <= l <= deg q)%Z -> (Z.abs m <= deg q)%Z -> ok l (Z.abs m) = true ->
      mom q' l m = RtoC (s ^ Z.to_nat (l + 3)) * mom q l m
  | Err e, Err e' => e = e'
  | _, _ => False
  end.
Lemma scales_ach ok s L tab tab' : (0 <= L)%Z -> tabwf tab = true -> tabwf tab' = true -> hom_tab ok s tab tab' -> scales_for ok s (Ok (ach_finish L tab)) (Ok (ach_finish L tab')).
Proof. intros HL W W' H. split; [now rewrite !deg_ach|]. rewrite deg_ach. now apply ach_hom. Qed.
Lemma rle_sxy s x y : (0 < s)%R -> rle (s * x) (s * y) = rle x y.
Proof. intros Hs. unfold rle. destruct (Rle_dec (s * x) (s * y)), (Rle_dec x y); try reflexivity; exfalso; nra. Qed.
Ltac sg := rewrite ?rle_s, ?rle_sxy, ?rlt_s, ?rlt_s0, ?req_s, ?req_s0 by assumption.
Ltac sopen := destruct (_ || _)%bool eqn:G; [reflexivity|]; opens; try (apply scales_ach; [assumption|reflexivity|reflexivity|]).
Theorem C38_ach_rect_prism : forall s L rho x y z, (0 < s)%R -> (0 <= L)%Z -> scales_for every s (ach_rect_prism L rho x y z) (ach_rect_prism L rho (s * x) (s * y) (s * z)).
Proof. intros. unfold ach_rect_prism. sg. sopen. apply hom_rect. Qed.
Theorem C38_ach_annulus : forall s L rho H Ri Ro phic phih, (0 < s)%R -> (0 <= L)%Z ->
  scales_for every s (ach_annulus L rho H Ri Ro phic phih) (ach_annulus L rho (s * H) (s * Ri) (s * Ro) phic phih).
Proof. intros. unfold ach_annulus. sg. sopen. apply hom_annulus. intros ?; lra. Qed.
Theorem C38_ach_cone2 : forall s L rho h r1 r2, (0 < s)%R -> (0 <= L)%Z -> scales_for every s (ach_cone2 L rho h r1 r2) (ach_cone2 L rho (s * h) (s * r1) (s * r2)).
Proof. intros. unfold ach_cone2. sg. sopen. apply hom_cone2. Qed.
Theorem C38_ach_tri_prism : forall s L rho h d y1 y2, (0 < s)%R -> (0 <= L)%Z -> scales_for every s (ach_tri_prism L rho h d y1 y2) (ach_tri_prism L rho (s * h) (s * d) (s * y1) (s * y2)).
Proof. intros. unfold ach_tri_prism. sg. sopen. apply hom_tri. Qed.
Theorem C38_ach_trapezoid : forall s L rho t w1 w2 h, (0 < s)%R -> (0 <= L)%Z ->
  scales_for every s (ach_trapezoid L rho t w1 w2 h) (ach_trapezoid L rho (s * t) (s * w1) (s * w2) (s * h)).
Proof.
  intros s L rho t w1 w2 h Hs HL. unfold ach_trapezoid. sg. destruct (_ || _)%bool eqn:G; [reflexivity|]. opens.
  destruct (Req_dec (w1 + w2) 0) as [E|E].
  - rewrite !is0_t; [reflexivity| |lra]. replace ((s * w1 + s * w2) / 2)%R with (s * (w1 + w2) / 2)%R by field. rewrite E. field.
  - rewrite !is0_f; [| |intros ?; lra].
    + apply scales_ach; [assumption|reflexivity|reflexivity|]. apply hom_trap; (assumption || (intros ?; lra)).
    + replace ((s * w1 + s * w2) / 2)%R with (s * (w1 + w2) / 2)%R by field. nz.
Qed.
Theorem C38_ach_cylindrical_section : forall s L rho t r d, (0 < s)%R -> (0 <= L)%Z ->
  scales_for every s (ach_cylindrical_section L rho t r d) (ach_cylindrical_section L rho (s * t) (s * r) (s * d)).
Proof. intros. unfold ach_cylindrical_section. sg. sopen. apply hom_seg; intros ?; lra. Qed.
Theorem C38_ach_tetrahedron : forall s L rho x y z, (0 < s)%R -> (0 <= L)%Z -> scales_for every s (ach_tetrahedron L rho x y z) (ach_tetrahedron L rho (s * x) (s * y) (s * z)).
Proof. intros. unfold ach_tetrahedron. sg. sopen. apply hom_tetra. Qed.
Theorem C38_ach_pyramid : forall s L rho h x y, (0 < s)%R -> (0 <= L)%Z -> scales_for every s (ach_pyramid L rho h x y) (ach_pyramid L rho (s * h) (s * x) (s * y)).
Proof. intros. unfold ach_pyramid. sg. sopen. apply hom_pyr. Qed.
Theorem C38_ach_platehole : forall s L rho t r theta, (0 < s)%R -> (0 <= L)%Z -> scales_for every s (ach_platehole L rho t r theta) (ach_platehole L rho (s * t) (s * r) theta).
Proof.
  intros. unfold ach_platehole. sg. destruct (_ || _)%bool eqn:G; [reflexivity|]. destruct (is0 _); [reflexivity|].
  apply scales_ach; [assumption|reflexivity|reflexivity|]. apply hom_plate.
Qed.
Theorem C38_ach_cylhole2 : forall ellipe ellipk s L rho r Rad, (0 < s)%R -> (0 <= L)%Z -> scales_for every s (ach_cylhole2 ellipe ellipk L rho r Rad) (ach_cylhole2 ellipe ellipk L rho (s * r) (s * Rad)).
Proof. intros. unfold ach_cylhole2. sg. sopen. apply hom_cylhole2; intros ?; lra. Qed.
(* cone: every entry but (5,0); that one breaks the law *)
Theorem C38_ach_cone : forall s L rho h r1 r2, (0 < s)%R -> (0 <= L)%Z -> scales_for (but 5 0) s (ach_cone L rho h r1 r2) (ach_cone L rho (s * h) (s * r1) (s * r2)).
Proof. intros. unfold ach_cone. sg. sopen. apply hom_cone. Qed.
Theorem C38_ach_cone_50_breaks_the_law : forall s L rho h r1 r2 q q', (0 < s)%R -> s <> 1%R -> (5 <= L)%Z -> rho <> 0%R -> (0 < r1)%R -> (0 < r2)%R -> r1 <> r2 ->
  ach_cone L rho h r1 r2 = Ok q -> ach_cone L rho (s * h) (s * r1) (s * r2) = Ok q' -> mom q' 5 0 <> RtoC (s ^ 8) * mom q 5 0.
Proof.
  intros s L rho h r1 r2 q q' Hs Hs1 HL Hr H1 H2 H12 E E'. unfold ach_cone in E, E'.
  destruct (rle h 0 || _)%bool eqn:G; [discriminate|]. destruct (rle (s * h) 0 || _)%bool; [discriminate|]. apply Ok_inj in E, E'. subst q q'.
  apply cone_guard in G. destruct G as [Gh _].
  rewrite !ach_entry by (reflexivity || lia). cbn [Z.eqb]. unfold ach_cone_tab; tab_read. cbn [RtoC Re fst]. intros E. apply (f_equal Re) in E. cbn [Cmult RtoC Re fst snd] in E.
  assert (HP := PI_RGT_0). assert (N1 : sqrt PI <> 0%R) by (apply sq_ne; lra). assert (N2 : sqrt 11 <> 0%R) by (apply sq_ne; lra).
  assert (N3 : (r1 ^ 2 - r2 ^ 2 <> 0)%R). { intros F. assert (FF : ((r1 - r2) * (r1 + r2) = 0)%R) by lra. apply Rmult_integral in FF. destruct FF; [apply H12; lra|lra]. }
  assert (N4 : (s ^ 7 <> 0)%R) by (apply pow_nonzero; lra). assert (N5 : (h ^ 2 <> 0)%R) by (apply pow_nonzero; lra). assert (N6 : (r1 ^ 2 <> 0)%R) by (apply pow_nonzero; lra).
  assert (K : (rho * sqrt PI * h ^ 2 * (r1 ^ 2 - r2 ^ 2) * sqrt 11 * s ^ 7 * r1 ^ 2 * r2 * (s - 1) = 0)%R) by lra.
  assert (N7 : (s - 1 <> 0)%R) by (intros ?; apply Hs1; lra). revert K. change (rho * sqrt PI * h ^ 2 * (r1 ^ 2 - r2 ^ 2) * sqrt 11 * s ^ 7 * r1 ^ 2 * r2 * (s - 1) <> 0)%R. nz.
Qed.
(* cylhole: the entries (2,2) and (4,4) lack their powers of length, whatever the special function *)
Theorem C38_ach_cylhole : forall hyp2f1 s L rho r Rad, (0 < s)%R -> (0 <= L)%Z ->
  scales_for (fun l m => but 2 2 l m && but 4 4 l m) s (ach_cylhole hyp2f1 L rho r Rad) (ach_cylhole hyp2f1 L rho (s * r) (s * Rad)).
Proof. intros. unfold ach_cylhole. sg. sopen. apply hom_cylhole; intros ?; lra. Qed.
Theorem C38_ach_cylhole_22_44 : forall hyp2f1 s L rho r Rad q q', (0 < s)%R -> (4 <= L)%Z ->
  ach_cylhole hyp2f1 L rho r Rad = Ok q -> ach_cylhole hyp2f1 L rho (s * r) (s * Rad) = Ok q' ->
  mom q' 2 2 = RtoC (s ^ 3) * mom q 2 2 /\ mom q' 4 4 = RtoC (s ^ 3) * mom q 4 4.
Proof.
  intros F s L rho r Rad q q' Hs HL E E'. unfold ach_cylhole in E, E'.
  destruct (rle r 0 || _)%bool eqn:G; [discriminate|]. destruct (rle (s * r) 0 || _)%bool; [discriminate|]. opens. apply Ok_inj in E, E'. subst q q'.
  rewrite !ach_entry by (reflexivity || lia). cbn [Z.eqb]. unfold ach_cylhole_tab; tab_read.
  replace (s * r / (s * Rad))%R with (r / Rad)%R by (field; split; lra). generalize (F (- (1 / 2)) (1 / 2) 2 ((r / Rad) ^ 2))%R. intros F2.
  split; apply C_eq; cbn [Cmult RtoC Re Im fst snd]; field.
Qed.
Print Assumptions C39_platehole.
Print Assumptions C39_cone2_agrees_with_cone.
Print Assumptions C38_ach_cone_50_breaks_the_law.
Print Assumptions C11_qlmACH_reality.
