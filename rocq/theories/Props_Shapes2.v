(* C49 (shapes.py): the primitives *)
From Verif Require Import ShapesProofs Props_Shapes ShapeSpec VInt QlmProofs QlmProofs2 QlmProofs3 QlmProofs6 QlmProofs7 Props_Qlm Props_Qlm2 Props_Torque Props_Multipole TranslationsProofs Props_BigQlm.
From Verif Require Import Cplx.
Open Scope C_scope.

Lemma regular_of_mass m B : regular B -> regular (of_mass m B).
Proof.
  intros RB. constructor; unfold of_mass.
  - intros f g I E (V & J & HV & BV & H & ->). exists V, J. split; [exact HV|]. split; [exact BV|]. split; [now apply (reg_ext B RB f)|reflexivity].
  - intros c f I (V & J & HV & BV & H & ->). exists V, (c * J). split; [exact HV|]. split; [exact BV|]. split; [now apply (reg_scal B RB)|ring].
  - intros f g I J (V & I1 & HV & BV & H1 & ->) (V' & J1 & HV' & BV' & K1 & ->).
    assert (E : V = V') by (apply RtoC_inj; now apply (reg_unique B RB (fun _ _ _ => 1))). subst V'.
    exists V, (I1 + J1). split; [exact HV|]. split; [exact BV|]. split; [now apply (reg_plus B RB)|ring].
  - intros f I (V & J & HV & BV & H & ->). exists V, (Cconj J). split; [exact HV|]. split; [exact BV|]. split; [now apply (reg_conj B RB)|]. now rewrite Cconj_mult, Cconj_RtoC.
  - intros f I J (V & I1 & HV & BV & H1 & ->) (V' & J1 & HV' & BV' & K1 & ->).
    assert (E : V = V') by (apply RtoC_inj; now apply (reg_unique B RB (fun _ _ _ => 1))). subst V'.
    now rewrite (reg_unique B RB f I1 J1 H1 K1).
Qed.
(* a moment array of a homogeneous body, put into a Shape with its centre at the origin *)
Definition centred (B : body) : Prop :=
  B (fun x _ _ => RtoC x) 0 /\ B (fun _ y _ => RtoC y) 0 /\ B (fun _ _ z => RtoC z) 0.
Lemma prim_describes B mass L q me c : regular B -> (0 <= L)%Z -> deg q = L -> moments_of_body q mass B -> (c = true -> centred B) ->
  describes (mkknown (of_mass mass B) L c) (mkshape true L (Ok q) (Ok v0) mass me).
Proof.
  intros RB HL D M Hc. destruct (body_real q mass B RB ltac:(lia) M) as (Rq & Cq & _). destruct M as (V & HV & BV & HI & _).
  split; cbn [k_body k_deg k_com s_inner s_lmax s_qlm s_com s_mass s_mesh].
  - reflexivity.
  - lia.
  - exists q. split; [reflexivity|]. split; [exact D|]. split; [exact Rq|]. split; [exact Cq|]. intros l m Hl Hm.
    destruct (HI l m ltac:(lia) Hm) as (I & H & E). exists V, I. rewrite E. now repeat split.
  - exists V, (RtoC V). split; [exact HV|]. split; [exact BV|]. split; [exact BV|]. rewrite <- RtoC_mult. f_equal. field. exact HV.
  - intros cx cy cz Ec Ev. injection Ev as <- <- <-. rewrite !Rmult_0_r. destruct (Hc Ec) as (H1 & H2 & H3).
    split; [|split]; exists V, 0; (split; [exact HV|]); (split; [exact BV|]); (split; [assumption|]); ring.
Qed.
Lemma centred_from B q : regular B -> deg q = 1%Z -> moments_of_body q 1 B -> mom q 1 0 = 0 -> mom q 1 1 = 0 -> centred B.
Proof.
  intros RB D M E0 E1. destruct (body_real q 1 B RB ltac:(lia) M) as (Rq & _ & _). destruct M as (V & HV & BV & HI & _).
  assert (N : RtoC (1 / V) <> 0) by (apply RtoC_neq0; unfold Rdiv; rewrite Rmult_1_l; now apply Rinv_neq_0_compat).
  assert (K : forall m, (Z.abs m <= 1)%Z -> mom q 1 m = 0 -> B (fun x y z => S_ 1 m (x, y, z)) 0).
  { intros m Hm E. destruct (HI 1%Z m ltac:(lia) Hm) as (I & H & EI). rewrite E in EI.
    assert (I = 0). { transitivity (/ RtoC (1 / V) * (RtoC (1 / V) * I)); [field; exact N|]. rewrite <- EI. ring. } subst I.
    apply (reg_val _ _ (/ RtoC (nrm 1 m) * 0)); [ring|]. apply (reg_ext B RB (fun x y z => / RtoC (nrm 1 m) * rsolid 1 m (x, y, z))); [|now apply (reg_scal B RB)].
    intros x y z. rewrite rsolid_S. field. apply nrmC_neq0. lia. }
  assert (Em : mom q 1 (- (1)) = 0) by (rewrite Rq by lia; rewrite E1, Cconj_RtoC; ring).
  assert (A0 := K 0%Z ltac:(lia) E0). assert (A1 := K 1%Z ltac:(lia) E1). assert (A2 := K (- (1))%Z ltac:(lia) Em).
  split; [|split].
  - apply (reg_val _ _ (0 + - (1) * 0)); [ring|]. apply (reg_ext B RB (fun x y z => S_ 1 (- (1)) (x, y, z) + - (1) * S_ 1 1 (x, y, z))).
    { intros. destruct (S_11 x y z) as [-> ->]. field. }
    apply (reg_plus B RB); [exact A2|now apply (reg_scal B RB)].
  - apply (reg_val _ _ (- Ci * (0 + 0))); [ring|]. apply (reg_ext B RB (fun x y z => - Ci * (S_ 1 (- (1)) (x, y, z) + S_ 1 1 (x, y, z)))).
    { intros. destruct (S_11 x y z) as [-> ->]. unfold Ci. apply injective_projections; cbn; field. }
    apply (reg_scal B RB). now apply (reg_plus B RB).
  - apply (reg_ext B RB (fun x y z => S_ 1 0 (x, y, z))); [|exact A0]. intros. unfold S_. apply solid_10.
Qed.
(* first entries of filled arrays *)
Lemma low_entries q f : deg q = 1%Z -> half q f -> f 1%Z 0%Z = 0 -> f 1%Z 1%Z = 0 -> mom (Arr.reflect q) 1 0 = 0 /\ mom (Arr.reflect q) 1 1 = 0.
Proof.
  intros D H E0 E1. split.
  - rewrite (reflect_mom q f) by (assumption || lia). cbn [Z.eqb]. now rewrite E0.
  - rewrite (reflect_mom q f) by (assumption || lia). cbn [Z.eqb Z.ltb Z.leb Z.compare Pos.compare Pos.compare_cont andb]. exact E1.
Qed.
Lemma box_centred phic H a b : (0 < H)%R -> (0 < a)%R -> (0 < b)%R -> centred (turned_z phic (box H a b)).
Proof.
  intros HH Ha Hb. destruct (C36_rect_prism 1 1 H a b phic ltac:(lia) HH Ha Hb) as (q & E & D & M).
  assert (K : mom q 1 0 = 0 /\ mom q 1 1 = 0).
  { unfold rect_prism in E. destruct (_ || _)%bool; [discriminate|]. apply Ok_inj in E. subst q.
    apply (low_entries _ (rect_entry 1 H a b phic)); [rewrite deg_fill by lia; reflexivity|apply half_fill; lia|reflexivity|reflexivity]. }
  apply (centred_from _ q); [apply regular_turned, regular_box|exact D|exact M|apply K|apply K].
Qed.
Lemma ball_centred Rad : (0 < Rad)%R -> centred (solid_ball Rad).
Proof.
  intros HR. destruct (C35_sphere 1 1 Rad ltac:(lia) HR) as (D & M).
  apply (centred_from _ (sphere 1 1 Rad)); [apply regular_ball|exact D|exact M| |]; reflexivity.
Qed.
Lemma ngon_centred H a phic N : (0 < H)%R -> (0 < a)%R -> (3 <= N)%nat -> centred (regular_prism H a phic N).
Proof.
  intros HH Ha HN. destruct (C36_ngon_prism 1 1 H a phic N ltac:(lia) HH Ha HN) as (q & E & D & M).
  assert (K : mom q 1 0 = 0 /\ mom q 1 1 = 0).
  { unfold ngon_prism in E. destruct (_ || _)%bool; [discriminate|]. destruct (_ <=? _)%Z; [discriminate|]. apply Ok_inj in E. subst q.
    apply (low_entries _ (ngon_entry 1 H a phic (Z.of_nat N))); [rewrite deg_fill by lia; reflexivity|apply half_fill; lia| |].
    - unfold ngon_entry. cbn [Z.even Z.sub Z.add Z.opp]. now rewrite andb_false_r.
    - unfold ngon_entry. rewrite Z.mod_small by lia. reflexivity. }
  apply (centred_from _ q); [apply regular_union; intros; apply regular_turned, regular_tri|exact D|exact M|apply K|apply K].
Qed.
Lemma ring_centred H Ri Ro phic : (0 < H)%R -> (0 <= Ri < Ro)%R -> centred (annular_sector H Ri Ro phic PI).
Proof.
  intros HH HR. assert (Hp := PI_RGT_0). destruct (C35_annulus 1 1 H Ri Ro phic PI ltac:(lia) HH HR ltac:(lra)) as (q & E & D & M).
  assert (K : mom q 1 0 = 0 /\ mom q 1 1 = 0).
  { unfold annulus in E. destruct (_ || _)%bool; [discriminate|]. cbv zeta in E. destruct (is0 _); [discriminate|]. apply Ok_inj in E. subst q.
    set (f := annulus_entry 1 H Ri Ro phic PI). set (c := (Ro ^ 2 - Ri ^ 2)%R) in *.
    apply (low_entries _ (fun l m => f l m / RtoC c)); [unfold mdiv; cbn [deg]; rewrite deg_fill by lia; reflexivity| | |].
    - intros l m Hl Hm. assert (G := half_fill 1 f ltac:(lia) l m Hl Hm). unfold mom, mdiv in *. cbn [deg at_] in *. rewrite G. destruct (_ && _)%bool; [reflexivity|]. unfold Cdiv. ring.
    - unfold f, annulus_entry. cbn [Z.even Z.sub Z.add Z.opp]. unfold Cdiv. ring.
    - unfold f, annulus_entry. rewrite np_sinc_int by lia. rewrite Rmult_0_r. destruct (Z.even _); unfold Cdiv; ring. }
  apply (centred_from _ q); [apply regular_annular|exact D|exact M|apply K|apply K].
Qed.

(* ---- C49: inner primitives describe the documented solid of the given mass, centre of mass included ---- *)
Definition stands_for (mass : R) (B : body) (com : bool) (lmax : Z) (r : res shape) : Prop :=
  exists s, r = Ok s /\ s_lmax s = lmax /\ s_mesh s <> None /\ regular (of_mass mass B) /\ describes (mkknown (of_mass mass B) lmax com) s.
Lemma stands B mass L q m c : regular B -> (0 <= L)%Z -> deg q = L -> moments_of_body q mass B -> (c = true -> centred B) ->
  stands_for mass B c L (prim true L mass m (Ok q)).
Proof.
  intros. eexists. split; [reflexivity|]. split; [reflexivity|]. split; [easy|]. split; [now apply regular_of_mass|]. now apply prim_describes.
Qed.
Theorem C49_RectPrism : forall lmax mass H a b phic, (0 <= lmax)%Z -> (0 < H)%R -> (0 < a)%R -> (0 < b)%R ->
  stands_for mass (turned_z phic (box H a b)) true lmax (RectPrism lmax true mass H a b phic).
Proof.
  intros L mass H a b pc HL HH Ha Hb. destruct (C36_rect_prism L mass H a b pc HL HH Ha Hb) as (q & E & D & M).
  unfold RectPrism, cad_rect_prism. cbn [rotate_mesh bind]. rewrite E.
  apply stands; [apply regular_turned, regular_box|assumption|assumption|assumption|intros _; now apply box_centred].
Qed.
Theorem C49_NGon : forall lmax mass H a phic N, (0 <= lmax)%Z -> (0 < H)%R -> (0 < a)%R -> (3 <= N)%nat ->
  stands_for mass (regular_prism H a phic N) true lmax (NGon lmax true mass H a phic (Z.of_nat N)).
Proof.
  intros L mass H a pc N HL HH Ha HN. destruct (C36_ngon_prism L mass H a pc N HL HH Ha HN) as (q & E & D & M).
  unfold NGon, cad_ngon_prism. cbn [rotate_mesh bind]. rewrite E.
  apply stands; [apply regular_union; intros; apply regular_turned, regular_tri|assumption|assumption|assumption|intros _; now apply ngon_centred].
Qed.
(* Sphere may also be given a centre *)
Theorem C49_Sphere : forall lmax mass Rad center, (0 <= lmax)%Z -> (0 < Rad)%R ->
  exists s, Sphere lmax true mass Rad center = Ok s /\ s_lmax s = lmax /\ s_mesh s <> None /\
  describes (mkknown (shifted center (of_mass mass (solid_ball Rad))) lmax true) s.
Proof.
  intros L mass Rad t HL HR. destruct (C35_sphere L mass Rad HL HR) as (D & M). unfold Sphere. cbn [prim bind].
  set (s0 := mkshape true L (Ok (sphere L mass Rad)) (Ok v0) mass (Some (cad_sphere (posm mass) Rad))).
  destruct (translate_describes (mkknown (of_mass mass (solid_ball Rad)) L true) s0 t) as (s' & E & H & Hm).
  - apply regular_of_mass, regular_ball.
  - apply prim_describes; [apply regular_ball|assumption|assumption|assumption|intros _; now apply ball_centred].
  - easy.
  - rewrite E. exists s'. split; [reflexivity|]. split; [|split; [exact Hm|exact H]].
    unfold shape_translate, s0 in E. cbn in E. injection E as <-. reflexivity.
Qed.
(* the full ring; a sector of it has the right moments but its centre of mass, left at the origin, is wrong *)
Theorem C49_Annulus : forall lmax mass H Ri Ro phic phih, (0 <= lmax)%Z -> (0 < H)%R -> (0 <= Ri < Ro)%R -> (0 < phih <= PI)%R ->
  stands_for mass (annular_sector H Ri Ro phic phih) false lmax (Annulus lmax true mass H Ri Ro phic phih) /\
  stands_for mass (annular_sector H Ri Ro phic PI) true lmax (Annulus lmax true mass H Ri Ro phic PI).
Proof.
  intros L mass H Ri Ro pc ph HL HH HR Hph. assert (Hp := PI_RGT_0). split.
  - destruct (C35_annulus L mass H Ri Ro pc ph HL HH HR Hph) as (q & E & D & M). unfold Annulus. rewrite E.
    apply stands; [apply regular_annular|assumption|assumption|assumption|easy].
  - destruct (C35_annulus L mass H Ri Ro pc PI HL HH HR ltac:(lra)) as (q & E & D & M). unfold Annulus. rewrite E.
    apply stands; [apply regular_annular|assumption|assumption|assumption|intros _; now apply ring_centred].
Qed.
(* the other four: right moments and mass; centre of mass left at the origin although the solid's is elsewhere *)
Definition wrong_com (mass : R) (B : body) (r : res shape) : Prop :=
  exists s, r = Ok s /\ s_com s = Ok v0 /\ (mass <> 0%R -> forall L, ~ describes (mkknown (of_mass mass B) L true) s).
Lemma wrong B mass L q m (f : R -> R -> R -> R) I : regular B -> (0 <= L)%Z -> deg q = L -> moments_of_body q mass B ->
  I <> 0%R -> B (fun x y z => RtoC (f x y z)) (RtoC I) -> (f = (fun x _ _ => x) \/ f = (fun _ _ z => z)) ->
  stands_for mass B false L (prim true L mass m (Ok q)) /\ wrong_com mass B (prim true L mass m (Ok q)).
Proof.
  intros RB HL D M HI BI Hf. split; [now apply stands|].
  eexists. split; [reflexivity|]. split; [reflexivity|]. intros Hm L' HD.
  assert (K : of_mass mass B (fun x y z => RtoC (f x y z)) (RtoC 0)).
  { destruct (d_com _ _ HD 0%R 0%R 0%R eq_refl eq_refl) as (H1 & _ & H3). cbn [k_body s_mass] in H1, H3. rewrite Rmult_0_r in H1, H3. destruct Hf as [-> | ->]; assumption. }
  destruct K as (V & J & HV & BV & BJ & E). assert (J = RtoC I) by (now apply (reg_unique B RB (fun x y z => RtoC (f x y z)))). subst J.
  rewrite <- RtoC_mult in E. apply RtoC_inj in E. symmetry in E. apply Rmult_integral in E. destruct E as [E|E]; [|contradiction].
  apply Hm. apply (Rmult_eq_reg_r (/ V)); [|now apply Rinv_neq_0_compat]. rewrite Rmult_0_l. exact E.
Qed.
Lemma dp_1 z : dp (RtoC z) 1 = RtoC z.
Proof. rewrite dp_RtoC by lia. f_equal. rewrite pw_1, zfact_1. field. Qed.
Lemma mono_z (B : body) mu : regular B -> B (mono 0 0 1) (RtoC mu) -> B (fun _ _ z => RtoC z) (RtoC mu).
Proof. intros RB H. apply (reg_ext B RB (mono 0 0 1)); [|exact H]. intros. unfold mono. rewrite !pw_0, dp_1. rewrite Rmult_1_l. ring. Qed.
Lemma mono_x (B : body) mu : regular B -> B (mono 1 0 0) (RtoC mu) -> B (fun x _ _ => RtoC x) (RtoC mu).
Proof. intros RB H. apply (reg_ext B RB (mono 1 0 0)); [|exact H]. intros. unfold mono. rewrite (pw_0 y), dp_0, (pw_1 x). rewrite (Rmult_1_r x). apply Cmult_1_r. Qed.
Lemma fact4 : zfact 4 = 24%R. Proof. unfold zfact. change (Z.to_nat 4) with 4%nat. change (fact 4) with 24%nat. rewrite INR_IZR_INZ. reflexivity. Qed.
Lemma fact2 : zfact 2 = 2%R. Proof. exact zfact_2. Qed.
Lemma pw_2 x : pw x 2 = (x * x)%R. Proof. rewrite pw_nonneg by lia. change (Z.to_nat 2) with 2%nat. simpl. ring. Qed.
Theorem C49_TriPrism : forall lmax mass H d y1 y2, (0 <= lmax)%Z -> (0 < H)%R -> d <> 0%R -> y1 <> y2 ->
  stands_for mass (triangular_prism H d y1 y2) false lmax (TriPrism lmax true mass H d y1 y2) /\
  wrong_com mass (triangular_prism H d y1 y2) (TriPrism lmax true mass H d y1 y2).
Proof.
  intros L mass H d y1 y2 HL HH Hd Hy. destruct (C36_tri_prism L mass H d y1 y2 HL HH Hd Hy) as (q & E & D & M).
  unfold TriPrism. rewrite E.
  apply (wrong _ _ _ _ _ (fun x _ _ => x) (mu_tri H d y1 y2 1 0 0)); [apply regular_tri|assumption|assumption|assumption| | |now left].
  - unfold mu_tri, zval. simpl (Z.even 0). cbv iota. simpl (0 + 1)%Z. simpl (1 + 1)%Z. simpl (1 + 0 + 2)%Z. rewrite !pw_1, !pw_0, zfact_1, pw_2.
    assert (y2 - y1 <> 0)%R by (intros ?; apply Hy; lra). replace (d * d * (y2 - y1) / (1 * 3) * (H / (1 * 1)))%R with (d * d * (y2 - y1) * H / 3)%R by field.
    unfold Rdiv. repeat apply Rmult_integral_contrapositive_currified; try assumption; lra.
  - apply mono_x; [apply regular_tri|]. apply tri_mono; (assumption || lia).
Qed.
Theorem C49_Tetrahedron : forall lmax mass x y1 y2 z, (0 <= lmax)%Z -> (0 < x)%R -> y1 <> y2 -> (0 < z)%R ->
  stands_for mass (apex_tetrahedron x y1 y2 z) false lmax (Tetrahedron lmax true mass x y1 y2 z) /\
  wrong_com mass (apex_tetrahedron x y1 y2 z) (Tetrahedron lmax true mass x y1 y2 z).
Proof.
  intros L mass x y1 y2 z HL Hx Hy Hz. destruct (C36_tetrahedron2 L mass x y1 y2 z HL Hx Hy Hz) as (q & E & D & M).
  unfold Tetrahedron. rewrite E.
  apply (wrong _ _ _ _ _ (fun _ _ z => z) (mu_apex x y1 y2 z 0 0 1)); [apply regular_apex|assumption|assumption|assumption| | |now right].
  - unfold mu_apex. simpl (0 + 1)%Z. simpl (1 + 1)%Z. simpl (0 + 0 + 1)%Z. simpl (1 + 3)%Z. rewrite !pw_1, zfact_1, pw_2, fact4.
    assert (y2 - y1 <> 0)%R by (intros ?; apply Hy; lra). replace (x * (y2 - y1) * (z * z) * 1 / (1 * 24))%R with (x * (y2 - y1) * (z * z) * / 24)%R by field.
    repeat apply Rmult_integral_contrapositive_currified; try assumption; lra.
  - apply mono_z; [apply regular_apex|]. apply apex_mono; (assumption || lia || lra).
Qed.
Theorem C49_Pyramid : forall lmax mass x y z, (0 <= lmax)%Z -> (0 < x)%R -> (0 < y)%R -> (0 < z)%R ->
  stands_for mass (rect_pyramid x y z) false lmax (Pyramid lmax true mass x y z) /\
  wrong_com mass (rect_pyramid x y z) (Pyramid lmax true mass x y z).
Proof.
  intros L mass x y z HL Hx Hy Hz. destruct (C36_pyramid L mass x y z HL Hx Hy Hz) as (q & E & D & M).
  unfold Pyramid. rewrite E.
  apply (wrong _ _ _ _ _ (fun _ _ z => z) (mu_pyr x y z 0 0 1)); [apply regular_pyramid|assumption|assumption|assumption| | |now right].
  - unfold mu_pyr. simpl (0 + 1)%Z. simpl (1 + 1)%Z. simpl (0 + 0 + 2)%Z. simpl (0 + 0 + 1 + 3)%Z. rewrite !pw_1, pw_2, fact4, fact2. unfold even2. simpl (Z.even 0). cbv iota.
    replace (2 * 2 * (x * y) / (1 * 1) * (z * z * 2 / 24))%R with (x * y * (z * z) / 3)%R by field.
    unfold Rdiv. repeat apply Rmult_integral_contrapositive_currified; try assumption; lra.
  - apply mono_z; [apply regular_pyramid|]. apply pyr_mono; (assumption || lia || lra).
Qed.
Theorem C49_Cone : forall lmax mass P Rad phic phih, (0 <= lmax)%Z -> (0 < P)%R -> (0 < Rad)%R -> (0 < phih <= PI)%R ->
  stands_for mass (cone_sector P Rad phic phih) false lmax (Cone lmax true mass P Rad phic phih) /\
  wrong_com mass (cone_sector P Rad phic phih) (Cone lmax true mass P Rad phic phih).
Proof.
  intros L mass P Rad pc ph HL HP HR Hph. destruct (C35_cone L mass P Rad pc ph HL HP HR Hph) as (q & E & D & M).
  unfold Cone, cad_cone. cbv zeta. cbn [rotate_mesh bind]. rewrite E.
  apply (wrong _ _ _ _ _ (fun _ _ z => z) (2 * ph * (Rad * Rad * (P * P) / 24))); [apply regular_cone|assumption|assumption|assumption| | |now right].
  - unfold Rdiv. repeat apply Rmult_integral_contrapositive_currified; try lra.
  - unfold cone_sector. assert (G := cone_mono P Rad pc ph 0 0 1 ltac:(lra) ltac:(lra) ltac:(lia) ltac:(lia)).
    apply (is_int3_ext _ _ _ _ _ _ _ (fun p z r => RtoC r * RtoC z)) in G.
    + replace (RtoC (2 * ph * (Rad * Rad * (P * P) / 24))) with (Phi 0 pc ph * RtoC (pw Rad (0 + 2) * pw P (1 + 1) * zfact (0 + 1) / zfact (1 + 0 + 3))); [exact G|].
      simpl (0 + 2)%Z. simpl (1 + 1)%Z. simpl (0 + 1)%Z. simpl (1 + 0 + 3)%Z. rewrite !pw_2, zfact_1, fact4. unfold Phi, np_sinc.
      destruct (Req_EM_T (0 * ph / PI) 0) as [_|E0]; [|exfalso; apply E0; unfold Rdiv; ring].
      rewrite (Rmult_0_l pc), Ropp_0, cexpi_0, Cmult_1_r, <- !RtoC_mult. f_equal. field.
    + intros. rewrite pw_0, dp_1. replace (IZR 0 * u)%R with 0%R by ring. rewrite Ropp_0, cexpi_0. ring.
Qed.

(* ---- C49: outer primitives ---- *)
(* no moments at all, although a mass is recorded *)
Theorem C49_outer_primitives_are_empty : forall lmax mass H a b phic d y1 y2 P Rad phih N x z,
  let empty r := exists s, r = Ok s /\ s_inner s = false /\ s_mass s = mass /\ s_qlm s = Ok (zeros lmax) in
  empty (RectPrism lmax false mass H a b phic) /\ empty (TriPrism lmax false mass H d y1 y2) /\
  empty (Cone lmax false mass P Rad phic phih) /\ empty (NGon lmax false mass H a phic N) /\
  empty (Tetrahedron lmax false mass x y1 y2 z) /\ empty (Pyramid lmax false mass x a z).
Proof. intros. unfold empty. repeat split; eexists; repeat split; reflexivity. Qed.
(* an outer Sphere computes its moments (C48) and throws them away; its centre is ignored for the mesh and for com *)
Theorem C49_outer_Sphere_forgets_its_moments : forall lmax mass Rad x y z, (0 <= lmax)%Z -> Rad <> 0%R -> (x, y, z) <> v0 ->
  exists s Q, Sphere lmax false mass Rad (x, y, z) = Ok s /\ s_qlm s = Ok (zeros lmax) /\ s_com s = Ok v0 /\
  big_sphere lmax (mass / (4 * PI * Rad ^ 3 / 3)) Rad x y z = Ok Q /\ holds Q (outer_moment (mkpt mass (x, y, z) :: nil)).
Proof.
  intros L mass Rad x y z HL HR Hv. assert (Hp := PI_RGT_0).
  assert (N : (4 * PI * Rad ^ 3 / 3)%R <> 0%R).
  { assert (HR3 : (Rad ^ 3)%R <> 0%R) by now apply pow_nonzero. clear -Hp HR3. revert Hp HR3. generalize PI, (Rad ^ 3)%R. intros p c Hp HR3.
    intros K. apply (Rmult_integral_contrapositive_currified p c); [lra|assumption|]. lra. }
  destruct (C48_sphere_is_a_point_mass L (mass / (4 * PI * Rad ^ 3 / 3)) Rad x y z HL Hv) as (Q & E & D & H).
  unfold Sphere. cbn [prim bind]. rewrite TranslationsProofs.is0_false by exact N. rewrite E. cbn [bind].
  eexists _, Q. split; [reflexivity|]. split; [reflexivity|]. split; [reflexivity|]. split; [reflexivity|].
  replace (mass / (4 * PI * Rad ^ 3 / 3) * (4 / 3 * PI * Rad ^ 3))%R with mass in H by (field; split; assumption || lra). exact H.
Qed.
(* an outer Annulus is given half the density of the solid of its mass *)
Theorem C49_outer_Annulus_has_half_the_mass : forall lmax mass H Ri Ro phic phih s, (0 <= lmax)%Z -> (0 < H)%R -> (0 < Ri < Ro)%R -> (0 < phih <= PI)%R ->
  Annulus lmax false mass H Ri Ro phic phih = Ok s ->
  exists rho V q1 q2, annular_sector H Ri Ro phic phih (fun _ _ _ => 1) (RtoC V) /\ (rho * V = mass / 2)%R /\
  big_annulus lmax rho (H / 2) Ri Ro phic phih = Ok q1 /\ big_annulus lmax rho (- H / 2) Ri Ro phic phih = Ok q2 /\
  s_qlm s = Ok (arr_add q1 q2).
Proof.
  intros L mass H Ri Ro pc ph s HL HH HR Hph E. assert (Hp := PI_RGT_0).
  assert (Hr : (0 < Ro ^ 2 - Ri ^ 2)%R) by (replace (Ro ^ 2 - Ri ^ 2)%R with ((Ro - Ri) * (Ro + Ri))%R by ring; apply Rmult_lt_0_compat; lra).
  assert (N : (2 * ph * (Ro ^ 2 - Ri ^ 2) * H)%R <> 0%R) by (repeat apply Rmult_integral_contrapositive_currified; lra).
  unfold Annulus in E. rewrite TranslationsProofs.is0_false in E by exact N. cbv zeta in E.
  set (rho := (mass / (2 * ph * (Ro ^ 2 - Ri ^ 2) * H))%R) in *.
  destruct (C37_big_annulus L rho (H / 2) Ri Ro pc ph HL) as (_ & _ & K1). cbv zeta in K1.
  destruct K1 as (q1 & E1 & D1); [intros [?|[?|[?|[?|[?|?]]]]]; lra|lra|].
  destruct (C37_big_annulus L rho (- H / 2) Ri Ro pc ph HL) as (_ & _ & K2). cbv zeta in K2.
  destruct K2 as (q2 & E2 & D2); [intros [?|[?|[?|[?|[?|?]]]]]; lra|lra|].
  rewrite E1, E2 in E. cbn [bind prim] in E. injection E as <-.
  exists rho, (H * ph * (Ro ^ 2 - Ri ^ 2))%R, q1, q2. split; [|split; [|now repeat split]].
  - eapply reg_val; [|apply annular_volume; lra]. f_equal. ring.
  - unfold rho. field. repeat split; lra.
Qed.
(* ---- C49: Cylhole and Platehole: whatever the quadrature returned, the monopole becomes mass sqrt(4 pi), which is
   4 pi times too large (C12: mass / sqrt(4 pi)) ---- *)
Theorem C49_renormalised_monopole : forall mass q, at_ q 0 (deg q) = RtoC (Re (at_ q 0 (deg q))) -> Re (at_ q 0 (deg q)) <> 0%R ->
  exists q', renorm mass q = Ok q' /\ mom q' 0 0 = RtoC (mass * sqrt (4 * PI)) /\
  (mass <> 0%R -> mom q' 0 0 <> RtoC (mass / sqrt (4 * PI))) /\
  forall l m, mom q' l m * RtoC (Re (at_ q 0 (deg q))) = mom q l m * RtoC (mass * sqrt (4 * PI)).
Proof.
  intros mass q Hr H0. assert (Hp := PI_RGT_0). assert (Hs : (0 < sqrt (4 * PI))%R) by (apply sqrt_lt_R0; lra).
  assert (Hss : (sqrt (4 * PI) * sqrt (4 * PI) = 4 * PI)%R) by (apply sqrt_sqrt; lra).
  unfold renorm. rewrite TranslationsProofs.is0_false by assumption. eexists. split; [reflexivity|].
  assert (E : mom (mkarr (deg q) (fun i j => at_ q i j * RtoC (mass / Re (at_ q 0 (deg q)) * sqrt (4 * PI)))) 0 0 = RtoC (mass * sqrt (4 * PI))).
  { unfold mom. cbn [deg at_]. rewrite Z.add_0_r. rewrite Hr at 1. rewrite <- RtoC_mult. f_equal. field. exact H0. }
  split; [exact E|]. split.
  - intros Hm K. rewrite E in K. apply RtoC_inj in K.
    assert (mass * (4 * PI) = mass)%R. { rewrite <- Hss. transitivity (mass * sqrt (4 * PI) * sqrt (4 * PI))%R; [ring|]. rewrite K. field. lra. }
    assert (G := PI2_3_2). unfold PI2 in G. assert (mass * (4 * PI - 1) = 0)%R by (ring_simplify; lra).
    apply Rmult_integral in H1. destruct H1; [contradiction|lra].
  - intros l m. unfold mom. cbn [deg at_]. rewrite <- Cmult_assoc, <- RtoC_mult. do 2 f_equal. field. exact H0.
Qed.

(* ---- C49: drawn meshes that are not the solid whose moments are computed ---- *)
(* points of a hull satisfy every linear bound its vertices do *)
Lemma hull_bound vs p (f : vec -> R) c : (forall a v, f (vscal a v) = a * f v)%R -> (forall u v, f (vadd u v) = f u + f v)%R -> f v0 = 0%R ->
  (forall v, In v vs -> (f v <= c)%R) -> hull vs p -> (f p <= c)%R.
Proof.
  intros Hs Ha H0 Hv (w & Hl & Hw & Hsum & ->). assert (G : (f (vsum (map (fun '(a, v) => vscal a v) (combine w vs))) <= fold_right Rplus 0 w * c)%R).
  { clear Hsum. revert vs Hl Hv. induction w as [|a w IH]; intros vs Hl Hv; destruct vs as [|v vs]; try discriminate; cbn [combine map vsum fold_right].
    - rewrite H0. lra.
    - rewrite Ha, Hs. inversion Hw; subst. assert (f (vsum (map (fun '(a, v) => vscal a v) (combine w vs))) <= fold_right Rplus 0 w * c)%R by (apply IH; [assumption|now injection Hl|intros; apply Hv; now right]).
      assert (f v <= c)%R by (apply Hv; now left). assert (a * f v <= a * c)%R by (now apply Rmult_le_compat_l). rewrite Rmult_plus_distr_r. apply Rplus_le_compat; assumption. }
  rewrite Hsum in G. lra.
Qed.
(* Pyramid: the mesh is confined to half the base whose moments are computed (rect_pyramid x y z has the base [-x,x] x [-y,y]) *)
Theorem C49_pyramid_mesh_is_half_size : forall pm x y z px py pz, (0 < x)%R -> (0 < y)%R -> (0 < z)%R ->
  mset (cad_pyramid pm x y z) (px, py, pz) -> (- (x / 2) <= px <= x / 2)%R /\ (- (y / 2) <= py <= y / 2)%R.
Proof.
  intros pm x y z px py pz Hx Hy Hz H. cbn [cad_pyramid mset] in H.
  assert (L : forall f : vec -> R, (forall a v, f (vscal a v) = a * f v)%R -> (forall u v, f (vadd u v) = f u + f v)%R -> f v0 = 0%R ->
    forall c, (f (x / 2, y / 2, 0) <= c)%R -> (f (x / 2, - y / 2, 0) <= c)%R -> (f (- x / 2, - y / 2, 0) <= c)%R -> (f (- x / 2, y / 2, 0) <= c)%R -> (f (0, 0, z) <= c)%R -> (f (px, py, pz) <= c)%R).
  { intros f F1 F2 F3 c V1 V2 V3 V4 V5. eapply hull_bound; [exact F1|exact F2|exact F3| |exact H]. intros v [<-|[<-|[<-|[<-|[<-|[]]]]]]; assumption. }
  assert (A : forall s t : R, let f := fun v : vec => let '(a, b, c) := v in (s * a + t * b)%R in
     (forall a v, f (vscal a v) = a * f v)%R /\ (forall u v, f (vadd u v) = f u + f v)%R /\ f v0 = 0%R).
  { intros s t. cbv zeta. split; [|split]; [intros a [[? ?] ?]; unfold vscal; ring|intros [[? ?] ?] [[? ?] ?]; unfold vadd; ring|unfold v0; ring]. }
  destruct (A 1%R 0%R) as (A1 & A2 & A3). destruct (A (-1)%R 0%R) as (B1 & B2 & B3). destruct (A 0%R 1%R) as (C1 & C2 & C3). destruct (A 0%R (-1)%R) as (D1 & D2 & D3).
  assert (G1 := L _ A1 A2 A3 (x / 2)%R). assert (G2 := L _ B1 B2 B3 (x / 2)%R). assert (G3 := L _ C1 C2 C3 (y / 2)%R). assert (G4 := L _ D1 D2 D3 (y / 2)%R).
  cbn beta iota in G1, G2, G3, G4.
  assert (1 * px + 0 * py <= x / 2)%R by (apply G1; lra). assert (-1 * px + 0 * py <= x / 2)%R by (apply G2; lra).
  assert (0 * px + 1 * py <= y / 2)%R by (apply G3; lra). assert (0 * px + -1 * py <= y / 2)%R by (apply G4; lra). lra.
Qed.
(* NGon: the mesh does not depend on phic, and lies within half the circumradius a / (2 sin(pi/N)) *)
Theorem C49_ngon_mesh : forall pm H a phic N, (3 <= N)%Z -> (0 < a)%R ->
  cad_ngon_prism pm H a phic N = cad_ngon_prism pm H a 0 N /\
  exists m, cad_ngon_prism pm H a phic N = Ok m /\
  forall u x y z, mset m (x, y, z) -> (cos u * x + sin u * y <= a / (2 * sin (PI / IZR N)) / 2)%R.
Proof.
  intros pm H a phic N HN Ha. split; [reflexivity|]. eexists. split; [reflexivity|]. cbn [mset]. intros u x y z K.
  assert (HN' : (3 <= IZR N)%R) by (apply IZR_le; lia). assert (Hp := PI_RGT_0).
  assert (Hth : (0 < PI / IZR N < PI)%R).
  { split; [apply Rdiv_lt_0_compat; lra|]. apply (Rmult_lt_reg_r (IZR N)); [lra|]. unfold Rdiv. rewrite Rmult_assoc, Rinv_l by lra.
    apply (Rlt_le_trans _ (PI * 3)); [lra|]. apply Rmult_le_compat_l; lra. }
  assert (Hsin : (0 < sin (PI / IZR N))%R) by (apply sin_gt_0; lra).
  set (Rd := (a / sqrt (2 * (1 - cos (2 * PI / IZR N))))%R) in *.
  assert (ER : Rd = (a / (2 * sin (PI / IZR N)))%R).
  { unfold Rd. f_equal. f_equal. replace (2 * PI / IZR N)%R with (2 * (PI / IZR N))%R by (field; lra). rewrite cos_2a_sin.
    replace (2 * (1 - (1 - 2 * sin (PI / IZR N) * sin (PI / IZR N))))%R with (Rsqr (2 * sin (PI / IZR N))) by (unfold Rsqr; ring).
    apply sqrt_Rsqr. lra. }
  rewrite <- ER. assert (HR : (0 < Rd)%R) by (rewrite ER; apply Rdiv_lt_0_compat; lra).
  unfold set_rotz at 1, set_roty, set_rotz in K. rewrite Ropp_0 in K.
  assert (K' : exists s c x' y', (s * s + c * c = 1)%R /\ (c * x' - s * y' = x)%R /\ (s * x' + c * y' = y)%R /\ polygon N Rd x' y').
  { cbn [zrot yrot] in K. rewrite sin_0, cos_0 in K. set (t := (2 * PI / IZR N / 2)%R) in *. unfold extrude in K. destruct K as [K _].
    eexists (sin t), (cos t), _, _. split; [|split; [|split; [|exact K]]]; rewrite ?cos_neg, ?sin_neg.
    - assert (G := sin2_cos2 t). unfold Rsqr in G. lra.
    - assert (G := sin2_cos2 t). unfold Rsqr in G. transitivity ((sin t * sin t + cos t * cos t) * x)%R; [ring|]. rewrite G. ring.
    - assert (G := sin2_cos2 t). unfold Rsqr in G. transitivity ((sin t * sin t + cos t * cos t) * y)%R; [ring|]. rewrite G. ring. }
  destruct K' as (s & c & x' & y' & Hsc & <- & <- & Hpoly). unfold polygon in Hpoly.
  assert (G := hull_bound (map (ngon_vertex N Rd) (seq 0 (Z.to_nat N))) (x', y', 0%R) (fun v : vec => let '(p, q, r) := v in ((c * cos u + s * sin u) * p + (c * sin u - s * cos u) * q)%R) (Rd / 2)%R).
  replace (cos u * (c * x' - s * y') + sin u * (s * x' + c * y'))%R with ((c * cos u + s * sin u) * x' + (c * sin u - s * cos u) * y')%R by ring.
  refine (G _ _ _ _ Hpoly).
  - intros b [[? ?] ?]. unfold vscal. ring.
  - intros [[? ?] ?] [[? ?] ?]. unfold vadd. ring.
  - unfold v0. ring.
  - intros v Hv. apply in_map_iff in Hv. destruct Hv as (k & <- & _). unfold ngon_vertex. set (w := (2 * PI * INR k / IZR N)%R).
    set (A := (c * cos u + s * sin u)%R). set (B := (c * sin u - s * cos u)%R).
    assert (E1 : (A * A + B * B = 1)%R).
    { unfold A, B. assert (G2 := sin2_cos2 u). unfold Rsqr in G2. transitivity ((s * s + c * c) * (sin u * sin u + cos u * cos u))%R; [ring|]. rewrite Hsc, G2. ring. }
    assert (E2 := sin2_cos2 w). unfold Rsqr in E2.
    assert ((A * cos w + B * sin w) <= 1)%R.
    { assert (0 <= (A - cos w) * (A - cos w) + (B - sin w) * (B - sin w))%R by (apply Rplus_le_le_0_compat; apply Rle_0_sqr).
      assert ((A - cos w) * (A - cos w) + (B - sin w) * (B - sin w) = (A * A + B * B) + (sin w * sin w + cos w * cos w) - 2 * (A * cos w + B * sin w))%R by ring. lra. }
    replace (A * (Rd / 2 * cos w) + B * (Rd / 2 * sin w))%R with (Rd / 2 * (A * cos w + B * sin w))%R by field.
    rewrite <- (Rmult_1_r (Rd / 2)) at 2. apply Rmult_le_compat_l; lra.
Qed.
(* Cylhole: the mesh reaches twice as far as the hole (|x| <= r) and twice as far as the cylinder wall *)
Theorem C49_cylhole_mesh : forall pm r Rad, (0 < r < Rad)%R -> mset (cad_cylhole pm r Rad) (2 * r, 0, 0)%R.
Proof.
  intros pm r Rad H. cbn. assert (r ^ 2 <= Rad ^ 2)%R by (apply pow_incr; lra). repeat split; try nra.
Qed.

(* ---- a program: two primitives, moved and united ---- *)
Lemma known_store k s : regular (k_body k) -> describes k s -> s_mesh s <> None -> forall w st i, agrees st w -> agrees (put st i s) (bput w i (Some k)).
Proof. intros. apply agrees_put; [assumption|]. now split; [|split]. Qed.
Definition outer0 : shape := shape_init 0 false.
Example C45_case : exists st, agrees st (bput (bput (fun _ => None) 0 (Some (mkknown (of_mass 2 (turned_z 0 (box 1 2 3))) 3 true))) 1
    (Some (mkknown (shifted (0, 0, 1)%R (of_mass 5 (solid_ball 1))) 4 true))) /\
  let ops := ORotate 0 1 2 3 :: OTranslate 1 (1, 1, 1)%R true :: OAdd 0 (NShape 1) :: OTranslate 0 (0, 1, 0)%R true :: nil in
  describes (mkknown (shifted (0, 1, 0)%R (together (ShapeSpec.turned 1 2 3 (of_mass 2 (turned_z 0 (box 1 2 3))))
    (shifted (1, 1, 1)%R (shifted (0, 0, 1)%R (of_mass 5 (solid_ball 1)))))) 3 true) (run ops st 0%nat).
Proof.
  destruct (C49_RectPrism 3 2 1 2 3 0 ltac:(lia) ltac:(lra) ltac:(lra) ltac:(lra)) as (s & _ & L1 & M1 & R1 & D1).
  destruct (C49_Sphere 4 5 1 (0, 0, 1)%R ltac:(lia) ltac:(lra)) as (s' & _ & L2 & M2 & D2).
  assert (A0 : agrees (fun _ => outer0) (fun _ => None)) by (intros i; reflexivity).
  exists (put (put (fun _ => outer0) 0 s) 1 s').
  assert (A : agrees (put (put (fun _ => outer0) 0 s) 1 s') (bput (bput (fun _ => None) 0 (Some (mkknown (of_mass 2 (turned_z 0 (box 1 2 3))) 3 true))) 1
    (Some (mkknown (shifted (0, 0, 1)%R (of_mass 5 (solid_ball 1))) 4 true)))).
  { apply known_store; [apply regular_shifted, regular_of_mass, regular_ball|exact D2|exact M2|]. now apply known_store. }
  split; [exact A|]. intros ops. assert (G := C45_any_history ops _ _ A 0%nat). apply G.
Qed.
Print Assumptions C49_Sphere.
Print Assumptions C49_Cone.
Print Assumptions C49_ngon_mesh.
