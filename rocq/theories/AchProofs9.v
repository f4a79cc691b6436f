(* Scaling of the closed forms of qlmACH.py. *)
From Verif Require Export AchProofs3 AchProofs6 Props_Qlm2.
From Verif Require Import ClebschGordanProofs TranslationsProofs.
From Verif Require Import Cplx.
Open Scope C_scope.

Lemma ach_hom s LMax tab tab' ok : (0 <= LMax)%Z -> tabwf tab = true -> tabwf tab' = true ->
  (forall l m, (0 <= m <= l)%Z -> (l <= 5)%Z -> ok l m = true -> tabf tab' l m = RtoC (s ^ Z.to_nat (l + 3)) * tabf tab l m) ->
  forall l m, (0 <= l <= LMax)%Z -> (Z.abs m <= LMax)%Z -> ok l (Z.abs m) = true ->
    mom (ach_finish LMax tab') l m = RtoC (s ^ Z.to_nat (l + 3)) * mom (ach_finish LMax tab) l m.
Proof.
  intros HL W W' H l m Hl Hm Ho. destruct (Z.leb_spec l 5) as [H5|H5].
  2:{ rewrite !ach_zero by (assumption || lia). ring. }
  rewrite !ach_mom by (assumption || lia).
  rewrite (reflect_mom _ (tabf tab')), (reflect_mom _ (tabf tab)) by (try (now apply half_puts); rewrite ?deg_puts; lia).
  destruct (Z.eqb_spec m 0) as [->|Hm0].
  - rewrite H by (assumption || lia). destruct (tabf tab l 0) as [u v]. apply C_eq; cbn [Cmult RtoC Re Im fst snd]; ring.
  - destruct (Z.ltb_spec 0 m), (Z.ltb_spec m 0), (Z.leb_spec m l), (Z.leb_spec (- m) l); try lia; cbn [andb]; try ring.
    + replace (Z.abs m) with m in Ho by lia. apply H; (assumption || lia).
    + replace (Z.abs m) with (- m)%Z in Ho by lia. rewrite (H l (- m)%Z) by (assumption || lia). rewrite Cconj_mult, Cconj_RtoC. ring.
Qed.
Ltac hom_cases := match goal with
  | |- forall l m, _ -> _ -> every l m = true -> _ => cut (forall l m, (0 <= m <= l)%Z -> (l <= 5)%Z -> _); [intros GG l m h1 h2 _; exact (GG l m h1 h2)|apply lm_cases]
  | |- _ => apply but_cases; apply lm_cases; cbv [Z.eqb Pos.eqb andb]; cbv iota; try exact I
  end.
Lemma sq_ne x : (0 < x)%R -> sqrt x <> 0%R. Proof. intros H. apply Rgt_not_eq, sqrt_lt_R0, H. Qed.
Ltac hne := first [assumption|(apply sq_ne; assert (HP := PI_RGT_0); lra)|(intros ?; lra)].
Ltac rrun := change (Z.to_nat (0 + 3)) with 3%nat; change (Z.to_nat (1 + 3)) with 4%nat; change (Z.to_nat (2 + 3)) with 5%nat; change (Z.to_nat (3 + 3)) with 6%nat;
  change (Z.to_nat (4 + 3)) with 7%nat; change (Z.to_nat (5 + 3)) with 8%nat; tab_read;
  try (rewrite Cmult_0_r; reflexivity); apply C_eq; cbn [Cmult Cplus Cminus Copp Cdiv Cinv Ci RtoC fst snd Re Im]; field; repeat split; hne.
Definition hom_tab (ok : Z -> Z -> bool) (s : R) (tab tab' : list (Z * Z * C)) : Prop :=
  forall l m, (0 <= m <= l)%Z -> (l <= 5)%Z -> ok l m = true -> tabf tab' l m = RtoC (s ^ Z.to_nat (l + 3)) * tabf tab l m.
Ltac hom_all := intros l m Hm Hl _; revert l m Hm Hl; apply lm_cases.
Ltac hom_but := unfold hom_tab; apply but_cases; apply lm_cases; cbv [Z.eqb Pos.eqb andb]; cbv iota; try exact I.
Lemma hom_rect s rho x y z : hom_tab every s (ach_rect_prism_tab rho x y z) (ach_rect_prism_tab rho (s * x) (s * y) (s * z)).
Proof. hom_all; unfold ach_rect_prism_tab; rrun. Qed.
Lemma hom_annulus s rho H Ri Ro pc ph : ph <> 0%R -> hom_tab every s (ach_annulus_tab rho H Ri Ro pc ph) (ach_annulus_tab rho (s * H) (s * Ri) (s * Ro) pc ph).
Proof.
  intros Hp l m Hm Hl _. rewrite !ach_annulus_tab_ok by assumption. rewrite annular_int_scale, pw_nonneg by lia. ring.
Qed.
Lemma hom_cone s rho h r1 r2 : hom_tab (but 5 0) s (ach_cone_tab rho h r1 r2) (ach_cone_tab rho (s * h) (s * r1) (s * r2)).
Proof. hom_but; unfold ach_cone_tab; rrun. Qed.
Lemma hom_cone2 s rho h r1 r2 : hom_tab every s (ach_cone2_tab rho h r1 r2) (ach_cone2_tab rho (s * h) (s * r1) (s * r2)).
Proof. hom_all; unfold ach_cone2_tab; rrun. Qed.
Lemma hom_tri s rho h d y1 y2 : hom_tab every s (ach_tri_prism_tab rho h d y1 y2) (ach_tri_prism_tab rho (s * h) (s * d) (s * y1) (s * y2)).
Proof.
  assert (E : Rabs (s * d * (s * y1 - s * y2)) = (s ^ 2 * Rabs (d * (y1 - y2)))%R).
  { replace (s * d * (s * y1 - s * y2))%R with (s ^ 2 * (d * (y1 - y2)))%R by ring. rewrite Rabs_mult. f_equal. apply Rabs_right. nra. }
  hom_all; unfold ach_tri_prism_tab; cbv zeta; rewrite E; generalize (Rabs (d * (y1 - y2))); intros D; rrun.
Qed.
Lemma hom_trap s rho t w1 w2 h : s <> 0%R -> (w1 + w2 <> 0)%R -> hom_tab every s (ach_trapezoid_tab rho t w1 w2 h) (ach_trapezoid_tab rho (s * t) (s * w1) (s * w2) (s * h)).
Proof.
  intros Hs Hw. hom_all; unfold ach_trapezoid_tab; cbv zeta;
  replace (s * w1 - s * w2)%R with (s * (w1 - w2))%R by ring; replace ((s * w1 + s * w2) / 2)%R with (s * ((w1 + w2) / 2))%R by field;
  assert (Hv : ((w1 + w2) / 2 <> 0)%R) by (intros E; apply Hw; lra);
  replace (s * (w1 - w2) / (s * ((w1 + w2) / 2)))%R with ((w1 - w2) / ((w1 + w2) / 2))%R by (field; split; assumption);
  generalize ((w1 - w2) / ((w1 + w2) / 2))%R; generalize ((w1 + w2) / 2)%R; intros w delw; rrun.
Qed.
Lemma hom_seg s rho t r d : s <> 0%R -> r <> 0%R -> hom_tab every s (ach_cylindrical_section_tab rho t r d) (ach_cylindrical_section_tab rho (s * t) (s * r) (s * d)).
Proof.
  intros Hs Hr. hom_all; unfold ach_cylindrical_section_tab; cbv zeta; replace (s * d / (s * r))%R with (d / r)%R by (field; split; assumption);
  generalize (sqrt (1 - (d / r) ^ 2)); generalize (acos (d / r)); intros ac sd; rrun.
Qed.
Lemma hom_tetra s rho x y z : hom_tab every s (ach_tetrahedron_tab rho x y z) (ach_tetrahedron_tab rho (s * x) (s * y) (s * z)).
Proof. hom_all; unfold ach_tetrahedron_tab; rrun. Qed.
Lemma hom_pyr s rho h x y : hom_tab every s (ach_pyramid_tab rho h x y) (ach_pyramid_tab rho (s * h) (s * x) (s * y)).
Proof. hom_all; unfold ach_pyramid_tab; rrun. Qed.
Lemma hom_plate s rho t r th : hom_tab every s (ach_platehole_tab rho t r th) (ach_platehole_tab rho (s * t) (s * r) th).
Proof. hom_all; unfold ach_platehole_tab; cbv zeta; generalize (sqrt (PI * (1 + tan th ^ 2))); generalize (tan th); intros T Q; rrun. Qed.
Definition cylhole_ok (l m : Z) : bool := but 2 2 l m && but 4 4 l m.
Lemma hom_cylhole F s rho r Rad : s <> 0%R -> Rad <> 0%R -> hom_tab cylhole_ok s (ach_cylhole_tab F rho r Rad) (ach_cylhole_tab F rho (s * r) (s * Rad)).
Proof.
  intros Hs Hr l m Hm Hl Ho. unfold cylhole_ok in Ho. apply andb_prop in Ho. destruct Ho as [O1 O2]. revert l m Hm Hl O1 O2.
  apply (lm_cases (fun l m => but 2 2 l m = true -> but 4 4 l m = true ->
    tabf (ach_cylhole_tab F rho (s * r) (s * Rad)) l m = RtoC (s ^ Z.to_nat (l + 3)) * tabf (ach_cylhole_tab F rho r Rad) l m)); intros O1 O2; try discriminate O1; try discriminate O2; clear O1 O2;
  unfold ach_cylhole_tab; cbv zeta; replace (s * r / (s * Rad))%R with (r / Rad)%R by (field; split; assumption);
  generalize (F (- (1 / 2)) (1 / 2) 2 ((r / Rad) ^ 2))%R (F (- (1 / 2)) (3 / 2) 3 ((r / Rad) ^ 2))%R (F (- (1 / 2)) (5 / 2) 4 ((r / Rad) ^ 2))%R; intros F2 F3 F4; rrun.
Qed.
Lemma hom_cylhole2 Fe Fk s rho r Rad : s <> 0%R -> Rad <> 0%R -> hom_tab every s (ach_cylhole2_tab Fe Fk rho r Rad) (ach_cylhole2_tab Fe Fk rho (s * r) (s * Rad)).
Proof.
  intros Hs Hr. hom_all; unfold ach_cylhole2_tab; cbv zeta; replace (s * r / (s * Rad))%R with (r / Rad)%R by (field; split; assumption);
  generalize (r / Rad)%R; intros k; generalize (if req k 1 then 1 else Fe (k ^ 2))%R (if req k 1 then 0 else Fk (k ^ 2))%R; intros Ek Kk; rrun.
Qed.
