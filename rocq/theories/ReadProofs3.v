(* Proofs about read_multiFor.py: a create statement makes the moments of the solid it names *)
From Verif Require Import ReadSpec ReadProofs ReadProofs2 ShapesProofs Props_ACH Props_Qlm TranslationsProofs.
From Verif Require Import QlmProofs QlmProofs2 QlmProofs3 QlmProofs4 QlmProofs5 QlmProofs6 QlmProofs7 AchProofs AchProofs2 AchProofs3 AchProofs4 AchProofs7 AchProofs8 VInt.
From Coq Require Import List ZArith Reals Lia Lra Bool.
From Verif Require Import Cplx.
Import ListNotations.
Open Scope C_scope.

Definition density_line (dens : numeral) (r : option string) : string := (show dens ++ match r with Some r => "," ++ r | None => "" end)%string.
Section decl.
Variable steinmetz : Z -> R -> R -> R -> res marr.
Ltac params := unfold create; cbn [String.eqb Ascii.eqb Bool.eqb decl_name decl_params bind map] in *; match goal with F : floats _ = _ |- _ => rewrite F end;
  cbn [bind map fscale item nth_error]; rewrite ?density_show by assumption; cbn [bind].
Lemma pos2 a b : (0 < a)%R -> (0 < b)%R -> (0 < a * b)%R. Proof. apply Rmult_lt_0_compat. Qed.
Lemma ap3 (f : R -> R -> R -> C) x y z x' y' z' : x = x' -> y = y' -> z = z' -> f x y z = f x' y' z'. Proof. now intros -> -> ->. Qed.
(* the trapezoid: w3 the shorter side *)
Lemma trap_good L dg rho t w3 w4 h : (0 <= dg <= L)%Z -> (0 < t)%R -> (0 < w3 < w4)%R -> (0 < h)%R -> let hs := (w3 * h / (w4 - w3))%R in let hb := (h + hs)%R in
  exists qb qs, tri_iso_prism L (rho * t * w4 * hb / 2) t w4 hb 0 = Ok qb /\ tri_iso_prism L (rho * t * w3 * hs / 2) t w3 hs 0 = Ok qs /\
    carries L dg (dense rho (trapezoidal_plate t w3 w4 h)) (translate_qlm (arr_minus qb qs) (- hs, 0, 0)%R).
Proof.
  intros HL Ht Hw Hh hs hb. assert (Hs : (0 < hs)%R) by (unfold hs; apply Rdiv_lt_0_compat; [apply pos2|]; lra).
  destruct (C36_tri_iso_prism L (rho * t * w4 * hb / 2) t w4 hb 0) as (qb & E & D & M); [lia|assumption|lra|unfold hb; lra|].
  destruct (C36_tri_iso_prism L (rho * t * w3 * hs / 2) t w3 hs 0) as (qs & E' & D' & M'); [lia|assumption|lra|lra|].
  exists qb, qs. split; [exact E|]. split; [exact E'|].
  apply unturned in M; [|apply regular_tri]. apply unturned in M'; [|apply regular_tri].
  assert (G : forall d w, d <> 0%R -> triangular_prism t d (- w / 2) (w / 2) (fun _ _ _ => 1) (RtoC (t * d * (w / 2)))).
  { intros d w Hd. replace (- w / 2)%R with (- (w / 2))%R by field. now apply iso_volume. }
  assert (Gb := good_dense L dg _ qb _ rho _ HL (regular_tri t hb (- w4 / 2) (w4 / 2)) D M (G hb w4 ltac:(unfold hb; lra)) ltac:(field)).
  assert (Gs := good_dense L dg _ qs _ rho _ HL (regular_tri t hs (- w3 / 2) (w3 / 2)) D' M' (G hs w3 ltac:(lra)) ltac:(field)).
  apply (good_incl L dg (shifted (- hs, 0, 0)%R (together (dense rho (triangular_prism t hb (- w4 / 2) (w4 / 2))) (dense (-1) (dense rho (triangular_prism t hs (- w3 / 2) (w3 / 2)))))));
    [apply regular_dense, regular_trap| |apply good_translate; [assumption|now apply good_minus]].
  intros f I (I1 & I2 & (J1 & B1 & ->) & (J2 & (J3 & B2 & ->) & ->) & ->). exists (J1 - J3). split.
  - apply trapezoid_split; [assumption|assumption| |].
    + eapply (reg_ext _ (regular_tri t hb (- w4 / 2) (w4 / 2))); [|exact B1]. intros x y z. unfold vadd. apply ap3; unfold hs; ring.
    + eapply (reg_ext _ (regular_tri t hs (- w3 / 2) (w3 / 2))); [|exact B2]. intros x y z. unfold vadd. apply ap3; unfold hs; ring.
  - replace (RtoC (-1)) with (- RtoC 1) by (rewrite <- RtoC_opp; f_equal; ring). ring.
Qed.
Lemma trap_flip_good L dg rho t w3 w4 h q : (0 <= dg <= L)%Z -> (0 < h)%R -> carries L dg (dense rho (trapezoidal_plate t w3 w4 h)) q ->
  exists q', rotate_qlm (translate_qlm q (- h, 0, 0)%R) 0 0 PI = Ok q' /\ carries L dg (dense rho (trapezoidal_plate t w4 w3 h)) q'.
Proof.
  intros HL Hh G. destruct (good_rotate L dg _ _ 0 0 PI HL (good_translate L dg _ q (- h, 0, 0)%R HL G)) as (q' & E & G'). exists q'. split; [exact E|].
  eapply good_incl; [apply regular_dense, regular_trap| |exact G']. intros f I (J & B & ->). exists J. split; [|reflexivity].
  apply trapezoid_flip; [assumption|]. eapply (reg_ext _ (regular_trap t w3 w4 h)); [|exact B]. intros x y z. unfold vadd, zrot, yrot.
  rewrite cos_0, sin_0, cos_PI, sin_PI. apply ap3; ring.
Qed.
(* the segment: a sector without its triangle *)
Lemma seg_good L dg rho t r d : (0 <= dg <= L)%Z -> (0 < t)%R -> (0 < d < r)%R -> let al := acos (d / r) in
  exists qc qt, annulus L (rho * t * al * r ^ 2) t 0 r 0 al = Ok qc /\ tri_iso_prism2 L (rho * t * d * r * sin al) t r 0 al = Ok qt /\
    carries L dg (dense rho (cylinder_segment t r d)) (arr_minus qc qt).
Proof.
  intros HL Ht Hd al. assert (HPI := PI_RGT_0).
  assert (Hk : (0 < d / r < 1)%R) by (split; [apply Rdiv_lt_0_compat; lra|]; apply (Rmult_lt_reg_r r); [lra|]; replace (d / r * r)%R with d by (field; lra); lra).
  destruct (acos_lt (d / r) Hk) as (Ha & Ec & Es). fold al in Ha, Ec, Es. assert (Ed : d = (r * cos al)%R) by (rewrite Ec; field; lra).
  destruct (C35_annulus L (rho * t * al * r ^ 2) t 0 r 0 al) as (qc & E & D & M); [lia|assumption|lra|lra|].
  destruct (C36_tri_iso_prism2 L (rho * t * d * r * sin al) t r 0 al) as (qt & E' & D' & M'); [lia|assumption|lra|lra|].
  exists qc, qt. split; [exact E|]. split; [exact E'|].
  apply unturned in M'; [|apply regular_tri]. assert (Nd : (r * cos al)%R <> 0%R) by lra.
  assert (Gc := good_dense L dg _ qc _ rho _ HL (regular_annular t 0 r 0 al) D M (annular_volume t 0 r 0 al ltac:(lra)) ltac:(ring)).
  assert (Gt := good_dense L dg _ qt _ rho _ HL (regular_tri t (r * cos al) (- (r * sin al)) (r * sin al)) D' M' (iso_volume t (r * cos al) (r * sin al) Nd) ltac:(rewrite Ed; ring)).
  apply (good_mono L dg rho (together (annular_sector t 0 r 0 al) (dense (-1) (triangular_prism t (r * cos al) (- (r * sin al)) (r * sin al)))) (cylinder_segment t r d) _ (mu_seg t r al)).
  - apply regular_seg.
  - apply regular_together; [apply regular_annular|apply regular_dense, regular_tri].
  - intros a b c A1 A2 A3. exists (RtoC (mu_sec t r al a b c)), (RtoC (-1) * RtoC (mu_tri t (r * cos al) (- (r * sin al)) (r * sin al) a b c)).
    split; [now apply sec_mono|]. split; [eexists; split; [now apply tri_mono|reflexivity]|].
    rewrite <- (seg_split t r al a b c) by (lra || assumption). rewrite <- RtoC_mult, <- RtoC_plus. f_equal. ring.
  - intros. now apply seg_mono.
  - eapply good_incl; [|  |apply good_minus; [exact Gc|exact Gt]].
    + apply regular_dense, regular_together; [apply regular_annular|apply regular_dense, regular_tri].
    + intros f I (I1 & I2 & (J1 & B1 & ->) & (J2 & (J3 & B2 & ->) & ->) & ->). exists (J1 + RtoC (-1) * J3). split; [|ring].
      exists J1, (RtoC (-1) * J3). split; [exact B1|]. split; [now exists J3|reflexivity].
Qed.
Lemma create_good L dg u s dens r : (0 <= dg <= L)%Z -> (0 < u)%R -> List.Forall proper_num (decl_params s) -> proper_num dens -> sizes_ok dg s ->
  exists q, create steinmetz L u (decl_name s) (Ok (show_list (decl_params s))) (Ok (density_line dens r)) = Some (Ok q) /\
    carries L dg (dense (value dens * 1000) (solid_of u s)) q.
Proof.
  intros HL Hu HP Hd HS. unfold density_line. assert (HPI := PI_RGT_0).
  assert (HF : floats (show_list (decl_params s)) = Ok (map value (decl_params s))) by (apply floats_show0; [destruct s; discriminate|assumption]).
  destruct s; cbn [sizes_ok] in HS; params; unfold solid_of.
  - destruct HS as (S1 & S2 & S3).
    destruct (C35_annulus L (value dens * 1000 * ((value phi1 - value phi0) * PI / 180 / 2) * (value H * u) * ((value Ro * u) ^ 2 - (value Ri * u) ^ 2)) (value H * u) (value Ri * u) (value Ro * u)
       ((value phi1 + value phi0) * PI / 180 / 2) ((value phi1 - value phi0) * PI / 180 / 2)) as (q & E & D & M); [lia|now apply pos2|split; [apply Rmult_le_pos; lra|apply Rmult_lt_compat_r; lra]| |].
    { split; [|]; nra. }
    exists q. split; [now rewrite E|].
    replace (radians ((value phi0 + value phi1) / 2)) with ((value phi1 + value phi0) * PI / 180 / 2)%R by (unfold radians; field).
    replace (radians ((value phi1 - value phi0) / 2)) with ((value phi1 - value phi0) * PI / 180 / 2)%R by (unfold radians; field).
    eapply good_dense; [exact HL|apply regular_annular|exact D|exact M|apply annular_volume; nra|]. ring.
  - destruct (C35_sphere L (value dens * 1000 * 4 / 3 * PI * (value r0 * u) ^ 3) (value r0 * u)) as (D & M); [lia|now apply pos2|].
    eexists. split; [reflexivity|]. eapply good_dense; [exact HL|apply regular_ball|exact D|exact M|apply ball_volume|]. field.
  - destruct HS as (S1 & S2 & S3).
    destruct (C35_cone L (value dens * 1000 * PI * (value H * u) * (value LR * u) ^ 2 / 3) (value H * u) (value LR * u) PI PI) as (q & E & D & M); [lia|now apply pos2|now apply pos2|lra|].
    exists q. split; [rewrite cone_turned by lia; now rewrite E|]. rewrite S2, Rmult_0_l, frustum_is_cone.
    eapply good_dense; [exact HL|apply regular_cone|exact D|exact M|apply cone_volume; [apply Rgt_not_eq, pos2; assumption|lra]|]. field.
  - destruct HS as (S1 & S2 & S3).
    destruct (C36_tri_prism L (value dens * 1000 * (value t * u) * (value d * u) * Rabs (value y2 * u - value y1 * u) / 2) (value t * u) (value d * u) (value y1 * u) (value y2 * u)) as (q & E & D & M);
      [lia|now apply pos2|apply Rgt_not_eq; now apply pos2|nra|].
    exists q. split; [now rewrite E|]. eapply good_dense; [exact HL|apply regular_tri|exact D|exact M| |].
    + apply (mono_000 _ (mu_tri (value t * u) (value d * u) (value y1 * u) (value y2 * u))); [apply regular_tri|]. intros. apply tri_mono; try assumption. apply Rgt_not_eq; now apply pos2.
    + rewrite tri_volume, Rabs_right by nra. field.
  - destruct HS as (S1 & S2 & S3 & S4 & S5). set (f1 := (value w1 * u)%R). set (f2 := (value w2 * u)%R). set (hh := (value h * u)%R). set (tt := (value t * u)%R).
    assert (P1 : (0 < f1)%R) by now apply pos2. assert (P2 : (0 < f2)%R) by now apply pos2. assert (P3 : (0 < hh)%R) by now apply pos2. assert (P4 : (0 < tt)%R) by now apply pos2.
    assert (P5 : f1 <> f2) by (unfold f1, f2; intros K; apply S3; nra). clearbody f1 f2 hh tt.
    destruct (rlt f2 f1) eqn:F.
    + unfold rlt in F. destruct (Rlt_dec f2 f1) as [F'|]; [|discriminate]. rewrite is0_f by lra.
      destruct (trap_good L dg (value dens * 1000) tt f2 f1 hh HL P4 ltac:(lra) P3) as (qb & qs & E & E' & G). rewrite E, E'. cbn [bind].
      replace (- (hh + f2 * hh / (f1 - f2) - f2 * hh / (f1 - f2)))%R with (- hh)%R by ring.
      destruct (trap_flip_good L dg _ _ _ _ _ _ HL P3 G) as (q' & E2 & G2). exists q'. split; [now rewrite E2|exact G2].
    + unfold rlt in F. destruct (Rlt_dec f2 f1) as [|F']; [discriminate|]. rewrite is0_f by lra.
      destruct (trap_good L dg (value dens * 1000) tt f1 f2 hh HL P4 ltac:(lra) P3) as (qb & qs & E & E' & G). rewrite E, E'. cbn [bind].
      eexists. split; [reflexivity|exact G].
  - destruct HS as (S1 & S2). assert (P1 : (0 < value r0 * u)%R) by (apply pos2; lra).
    assert (Hk : (0 < value d * u / (value r0 * u) < 1)%R).
    { replace (value d * u / (value r0 * u))%R with (value d / value r0)%R by (field; split; lra). split; [apply Rdiv_lt_0_compat; lra|]. apply (Rmult_lt_reg_r (value r0)); [lra|]. replace (value d / value r0 * value r0)%R with (value d) by (field; lra). lra. }
    rewrite is0_f by lra. rewrite rlt_f by (rewrite Rabs_right; lra).
    destruct (seg_good L dg (value dens * 1000) (value h * u) (value r0 * u) (value d * u) HL) as (qc & qt & E & E' & G); [now apply pos2|split; [apply pos2; lra|apply Rmult_lt_compat_r; lra]|].
    rewrite E, E'. eexists. split; [reflexivity|exact G].
  - destruct HS as (S1 & S2 & S3).
    destruct (C36_tetrahedron L (value dens * 1000 * (value x * u) * (value y * u) * (value z * u) / 6) (value x * u) (value y * u) (value z * u)) as (q & E & D & M); [lia|now apply pos2|now apply pos2|now apply pos2|].
    exists q. split; [now rewrite E|]. eapply good_dense; [exact HL|apply regular_corner|exact D|exact M| |].
    + apply (mono_000 _ (mu_corner (value x * u) (value y * u) (value z * u))); [apply regular_corner|]. intros. apply corner_mono; try assumption; apply Rgt_not_eq; now apply pos2.
    + rewrite corner_volume. field.
  - destruct HS as [(S1 & S2 & S3) S4].
    replace (value theta * (PI / 180))%R with (radians (value theta)) by (unfold radians; field).
    assert (Hth : (Rabs (radians (value theta)) < PI / 2)%R) by (unfold radians; apply Rabs_def1; nra).
    destruct (C39_platehole L (value dens * 1000) (value t * u) (value r0 * u) (radians (value theta))) as (q & E & D & M); [lia|now apply pos2|now apply pos2|exact Hth|].
    exists q. split; [now rewrite E|]. assert (Hc : (0 < cos (radians (value theta)))%R) by (apply Rabs_def2 in Hth; apply cos_gt_0; lra).
    destruct M as (V & HV & BV & HM & _ & HC).
    assert (EV : V = (PI * (value t * u) * (value r0 * u) ^ 2 / cos (radians (value theta)))%R).
    { apply RtoC_inj. eapply (reg_unique _ (regular_hole _ _ _)); [exact BV|]. rewrite <- (hole_volume _ _ (tan (radians (value theta)))) by lra.
      apply mono_000; [apply regular_hole|]. intros. apply hole_mono; (assumption || lra). }
    assert (PV : (0 < V)%R) by (rewrite EV; apply Rdiv_lt_0_compat; [|exact Hc]; apply pos2; [apply pos2; [lra|now apply pos2]|apply pow_lt; now apply pos2]).
    split; [exact D| | |apply regular_dense, regular_hole|].
    + apply (C11_qlmACH_reality L _ q ltac:(lia)) in E; [apply E|constructor].
    + exact HC.
    + intros l m Hl Hm. destruct (HM l m ltac:(lia) ltac:(lia) Hm eq_refl) as (I & BI & EI). exists I. split; [exact BI|]. rewrite EI, Rabs_right by lra. f_equal. f_equal. field. lra.
  - destruct HS as (S1 & S2 & S3).
    destruct (C36_pyramid L (value dens * 1000 * (value x * u) * (value y * u) * (value z * u) / 3) (value x * u / 2) (value y * u / 2) (value z * u)) as (q & E & D & M);
      [lia|assert (0 < value x * u)%R by (now apply pos2); lra|assert (0 < value y * u)%R by (now apply pos2); lra|now apply pos2|].
    exists q. split; [now rewrite E|]. eapply good_dense; [exact HL|apply regular_pyramid|exact D|exact M| |].
    + apply (mono_000 _ (mu_pyr (value x * u / 2) (value y * u / 2) (value z * u))); [apply regular_pyramid|]. intros. apply pyr_mono; try assumption; apply Rgt_not_eq; now apply pos2.
    + rewrite pyr_volume. field.
  - destruct HS as (S1 & S2 & S3).
    destruct (C36_rect_prism L (value dens * 1000 * (value x * u) * (value y * u) * (value z * u)) (value z * u) (value x * u) (value y * u) 0) as (q & E & D & M); [lia|now apply pos2|now apply pos2|now apply pos2|].
    exists q. split; [now rewrite E|]. apply unturned in M; [|apply regular_box]. eapply good_dense; [exact HL|apply regular_box|exact D|exact M| |].
    + apply (mono_000 _ (mu_box (value z * u) (value x * u) (value y * u))); [apply regular_box|]. intros. now apply box_mono.
    + rewrite box_volume. ring.
Qed.
End decl.
