(* C62: from expressions built of library calls to the attraction of the bodies they describe. *)
From Coq Require Import Reals Lra Lia ZArith List.
From Coquelicot Require Import Coquelicot.
From Verif Require Import Sums Props_Multipole TransSpec TransRecProofs NewtonSpec Irreg Props_Series Newton CDeriv MultipoleLib MultipoleProofs RotSpec Rotations Translations Props_Torque Props_Series2 Addition Irreg2 Legendre.
From Verif Require Import LipInt BodyPair BodyLim BodyInt BodyShapes Pg2MultiProofs Pg2Multi Qlm TranslationRecurs Rotor Props_Body TranslationsProofs ShapesProofs Props_Shapes Props_Moments Props_Qlm Props_Rotor Props_TransRec.
From Verif Require Import RecipeSpec.
From Verif Require Import Cplx.
Open Scope R_scope.

Lemma of_mass_moments q m B : regular B -> moments_of_body q m B -> moments_of q (of_mass m B).
Proof.
  intros RB (V & HV & H1 & H & Hc). split; [|exact Hc]. intros l k Hl Hk. destruct (H l k Hl Hk) as (I & HI & E). exists V, I. now repeat split.
Qed.
Lemma shape_ok m B r (e : lib_expr) : built B r -> (forall L, (0 <= L)%Z -> exists q, e L = Ok q /\ deg q = L /\ moments_of_body q m B) ->
  built (of_mass m B) r /\ forall L, (1 <= L)%Z -> exists q, e L = Ok q /\ deg q = L /\ moments_of q (of_mass m B).
Proof.
  intros HB H. split.
  - destruct (H 0%Z ltac:(lia)) as (q & _ & _ & (V & HV & H1 & _)). now apply (b_of_mass m V).
  - intros L HL. destruct (H L ltac:(lia)) as (q & E & D & M). exists q. split; [exact E|]. split; [exact D|]. apply of_mass_moments; [exact (n_reg _ _ (nice_built B r HB))|exact M].
Qed.
Lemma tan_pos N : (3 <= N)%nat -> 0 < tan (PI / INR N).
Proof.
  intros HN. assert (H : 3 <= INR N) by (change 3 with (IZR 3); rewrite INR_IZR_INZ; apply IZR_le; lia). assert (P := PI_RGT_0). apply tan_gt_0.
  - apply Rdiv_lt_0_compat; lra.
  - unfold Rdiv. apply Rmult_lt_compat_l; [exact P|]. apply Rinv_lt_contravar; [nra|lra].
Qed.
Theorem C62_expressions : forall e B r, means e B r -> built B r /\ forall L, (1 <= L)%Z -> exists q, e L = Ok q /\ deg q = L /\ moments_of q B.
Proof.
  induction 1.
  - split; [now apply b_points|]. intros L HL. destruct (C08_qmoments L P ltac:(lia)) as (q & E & D & [Hq Hc]); [assumption|]. exists q. split; [exact E|]. split; [exact D|]. split; [|exact Hc].
    intros l m Hl Hm. rewrite Hq by assumption. unfold point_masses, inner_moment. apply lsum_ext. intros [k [[x y] z]] _. reflexivity.
  - apply shape_ok; [unfold solid_cylinder; apply b_cylinder_shell; lra|]. intros L HL. now apply C35_cylinder.
  - apply shape_ok; [apply b_cylinder_shell; lra|]. intros L HL. now apply C35_annulus.
  - apply shape_ok; [apply b_cone; lra|]. intros L HL. now apply C35_cone.
  - apply shape_ok; [apply b_ball; lra|]. intros L HL. destruct (C35_sphere L m Rad HL ltac:(lra)). eexists. split; [reflexivity|]. now split.
  - apply shape_ok; [now apply b_prism|]. intros L HL. apply C36_tri_prism; (assumption || lra).
  - apply shape_ok; [apply b_turned_z, b_prism; nra|]. intros L HL. apply C36_tri_iso_prism; (assumption || lra).
  - apply shape_ok; [|intros L HL; now apply C36_tri_iso_prism2]. assert (0 < cos phih) by (apply cos_gt_0; lra).
    assert (E : (Rad * cos phih) ^ 2 + (Rad * sin phih) ^ 2 = Rad ^ 2) by (assert (S := sc2 phih); rewrite <- (Rmult_1_r (Rad ^ 2)), <- S; ring). apply b_turned_z, b_prism; nra.
  - apply shape_ok; [now apply b_turned_z, b_box|]. intros L HL. now apply C36_rect_prism.
  - apply shape_ok; [|intros L HL; now apply C36_ngon_prism]. assert (T := tan_pos N H2). apply b_union; [assumption|]. intros i Hi. apply b_turned_z, b_prism; try assumption; try nra. apply Rdiv_lt_0_compat; lra.
  - apply shape_ok; [now apply b_corner|]. intros L HL. apply C36_tetrahedron; (assumption || lra).
  - apply shape_ok; [now apply b_apex|]. intros L HL. apply C36_tetrahedron2; (assumption || lra).
  - apply shape_ok; [apply b_pyramid; (assumption || lra)|]. intros L HL. apply C36_pyramid; (assumption || lra).
  - destruct IHmeans as [HB IH]. split; [now apply b_turned|]. intros L HL. destruct (IH L HL) as (q & E & D & [M Hc]). rewrite E. cbn [bind].
    destruct (C23_any_body B q a b g (deg q) (n_reg _ _ (nice_built B r HB)) ltac:(lia) M) as (q' & E' & D' & M'). exists q'. split; [exact E'|]. split; [lia|].
    split; [intros l k Hl Hk; apply M'; lia|]. exact (proj2 (rot_corners q a b g q' ltac:(lia) Hc E')).
  - destruct IHmeans as [HB IH]. split; [now apply b_shifted|]. intros L HL. destruct (IH L HL) as (q & E & D & [M Hc]). rewrite E. cbn [bind]. eexists. split; [reflexivity|].
    assert (RB := n_reg _ _ (nice_built B r HB)). assert (Rq := moments_reality q B RB (conj M Hc)). destruct (translate_qlm_holds q t ltac:(lia) Rq Hc) as [D' [_ Hc']].
    split; [congruence|]. split; [|exact Hc']. intros l k Hl Hk. apply (C16_any_body B q t (deg q) RB ltac:(lia) Rq Hc M); lia.
  - destruct IHmeans as [HB IH]. split; [now apply b_shifted|]. intros L HL. destruct (IH L HL) as (q & E & D & [M Hc]). rewrite E. cbn [bind].
    assert (RB := n_reg _ _ (nice_built B r HB)). assert (Rq := moments_reality q B RB (conj M Hc)). destruct (translate_qlm_holds q t ltac:(lia) Rq Hc) as [D' [_ Hc']].
    destruct (C18_recursive_equals_clebsch_gordan q t ltac:(lia) Rq Hc ltac:(lia)) as (q' & E' & Ds & Sm). exists q'. split; [exact E'|]. split; [congruence|]. split.
    + intros l k Hl Hk. rewrite Sm by lia. apply (C16_any_body B q t (deg q) RB ltac:(lia) Rq Hc M); lia.
    + exact (proj2 (rec_corners q t q' ltac:(lia) Hc E')).
  - destruct IHmeans1 as [HB1 IH1], IHmeans2 as [HB2 IH2]. split; [now apply b_together|]. intros L HL. destruct (IH1 L HL) as (q & E & D & [M Hc]). destruct (IH2 L HL) as (q' & E' & D' & [M' Hc']).
    rewrite E, E'. cbn [bind]. unfold add_in_place. rewrite (proj2 (Z.eqb_eq _ _)) by lia. eexists. split; [reflexivity|]. split; [exact D|]. split; [|apply corners_add; [lia|exact Hc|exact Hc']].
    intros l k Hl Hk. cbn [deg Shapes.arr_add] in Hl. exists (mom q l k), (mom q' l k). split; [now apply M|]. split; [apply M'; lia|]. unfold mom, Shapes.arr_add. cbn [deg at_]. now rewrite D, D'.
  - destruct IHmeans as [HB IH]. split; [now apply (b_larger B r)|exact IH].
Qed.
Theorem C62_energy : forall e1 B1 r1 e2 B2 r2 t c, means e1 B1 r1 -> means e2 B2 r2 -> r1 + r2 < vnorm t ->
  exists E, pair_integral B1 r1 B2 r2 (fun v w => near_energy v (vadd w t)) E /\
  forall eps, 0 < eps -> exists D, forall L, (D <= L)%Z ->
  exists q qs Q, e1 L = Ok q /\ e2 L = Ok qs /\ translate_q2Q qs t = Ok Q /\ Cmod (work c L (mom q) (mom Q) - RtoC (c * E))%C < eps.
Proof.
  intros e1 B1 r1 e2 B2 r2 t c M1 M2 Ht. apply C62_expressions in M1. apply C62_expressions in M2. destruct M1 as [H1 K1], M2 as [H2 K2].
  destruct (C61_energy B1 r1 B2 r2 t c H1 H2 Ht) as (E & HE & Lim). exists E. split; [exact HE|]. intros eps He. destruct (Lim eps He) as (D & HD). exists (Z.max 1 D). intros L HL.
  destruct (K1 L ltac:(lia)) as (q & E1 & D1 & Mq). destruct (K2 L ltac:(lia)) as (qs & E2 & D2 & Mqs). destruct (HD q qs ltac:(lia) ltac:(lia) Mq Mqs) as (Q & EQ & _ & Cl).
  exists q, qs, Q. rewrite D1 in Cl. now repeat split.
Qed.
Theorem C62_force : forall e1 B1 r1 e2 B2 r2 t x y z c, means e1 B1 r1 -> means e2 B2 r2 -> r1 + vnorm (x, y, z) + r2 < vnorm t ->
  exists Fx Fy Fz,
    pair_integral B1 r1 B2 r2 (fun v w => pull (1, 0, 0) (vadd v (x, y, z)) (vadd w t)) Fx /\
    pair_integral B1 r1 B2 r2 (fun v w => pull (0, 1, 0) (vadd v (x, y, z)) (vadd w t)) Fy /\
    pair_integral B1 r1 B2 r2 (fun v w => pull (0, 0, 1) (vadd v (x, y, z)) (vadd w t)) Fz /\
  forall eps, 0 < eps -> exists D, forall L, (D <= L)%Z ->
  exists q qs Q f, e1 L = Ok q /\ e2 L = Ok qs /\ translate_q2Q qs t = Ok Q /\ multipole_force L q Q x y z c = Ok f /\ near eps f (c * Fx, c * Fy, c * Fz).
Proof.
  intros e1 B1 r1 e2 B2 r2 t x y z c M1 M2 Ht. apply C62_expressions in M1. apply C62_expressions in M2. destruct M1 as [H1 K1], M2 as [H2 K2].
  destruct (C61_force B1 r1 B2 r2 t x y z c H1 H2 Ht) as (Fx & Fy & Fz & HX & HY & HZ & Lim). exists Fx, Fy, Fz. split; [exact HX|]. split; [exact HY|]. split; [exact HZ|]. intros eps He. destruct (Lim eps He) as (D & HD). exists (Z.max 1 D). intros L HL.
  destruct (K1 L ltac:(lia)) as (q & E1 & D1 & Mq). destruct (K2 L ltac:(lia)) as (qs & E2 & D2 & Mqs). destruct (HD q qs ltac:(lia) ltac:(lia) Mq Mqs) as (Q & f & EQ & Ef & Cl).
  exists q, qs, Q, f. rewrite D1 in Ef. now repeat split.
Qed.
Theorem C62_torque : forall e1 B1 r1 e2 B2 r2 t phi c, means e1 B1 r1 -> means e2 B2 r2 -> r1 + r2 < vnorm t ->
  exists T, pair_integral B1 r1 B2 r2 (fun v w => twist (zrot phi v) (vadd w t)) T /\
  forall eps, 0 < eps -> exists D, forall L, (D <= L)%Z ->
  exists q qs Q nlm nc ns n, e1 L = Ok q /\ e2 L = Ok qs /\ translate_q2Q qs t = Ok Q /\ torque_lm q Q c = Ok (nlm, nc, ns) /\ torques_at_angle nc ns phi false = Ok n /\ Rabs (n - c * T) < eps.
Proof.
  intros e1 B1 r1 e2 B2 r2 t phi c M1 M2 Ht. apply C62_expressions in M1. apply C62_expressions in M2. destruct M1 as [H1 K1], M2 as [H2 K2].
  destruct (C61_torque B1 r1 B2 r2 t phi c H1 H2 Ht) as (T & HT & Lim). exists T. split; [exact HT|]. intros eps He. destruct (Lim eps He) as (D & HD). exists (Z.max 1 D). intros L HL.
  destruct (K1 L ltac:(lia)) as (q & E1 & D1 & Mq). destruct (K2 L ltac:(lia)) as (qs & E2 & D2 & Mqs). destruct (HD q qs ltac:(lia) ltac:(lia) Mq Mqs) as (Q & nlm & nc & ns & n & EQ & En & Et & Cl).
  exists q, qs, Q, nlm, nc, ns, n. now repeat split.
Qed.
(* ---- the example scripts: a rotor of five cylinders (LIGO) or two arcs (Virgo) and a mirror ---- *)
Definition ring3 (B : body) : body := together (together B (turned (2 * PI / 3) 0 0 B)) (turned (4 * PI / 3) 0 0 B).
Definition ring2 (A B : body) : body := together (together A B) (turned PI 0 0 B).
Definition five_cylinders (m H Rad a b : R) : body :=
  let cyl := of_mass m (solid_cylinder H Rad) in ring2 (ring3 (shifted (a, 0, 0) cyl)) (shifted (b, 0, 0) cyl).
Definition two_arcs (m H Ri Ro beta : R) : body := let arc := of_mass (m / 2) (annular_sector H Ri Ro 0 beta) in together arc (turned PI 0 0 arc).
Definition laid_cylinder (m H Rad : R) : body := turned (PI / 2) (PI / 2) (- PI / 2) (of_mass m (solid_cylinder H Rad)).
Lemma vnorm_x a : vnorm (a, 0, 0) = Rabs a.
Proof. rewrite vnorm_xyz. replace (a ^ 2 + 0 ^ 2 + 0 ^ 2) with (Rsqr a) by (unfold Rsqr; ring). apply sqrt_Rsqr_abs. Qed.
Lemma bind_assoc {A B D : Type} (x : res A) (f : A -> res B) (g : B -> res D) : (do b <- (do a <- x; f a); g b) = (do a <- x; do b <- f a; g b).
Proof. now destruct x. Qed.
Lemma ligo_means m H Rad a b r s : 0 < H -> 0 < Rad -> 0 <= r -> Rad ^ 2 + (H / 2) ^ 2 <= r ^ 2 -> Rabs a <= s -> Rabs b <= s ->
  exists e, means e (five_cylinders m H Rad a b) (r + s) /\ forall L, ligo_rotor L m H Rad a b = e L.
Proof.
  intros HH HR Hr Hf Ha Hb. assert (C0 := e_cylinder m H Rad r HH HR Hr Hf).
  assert (K : forall k, Rabs k <= s -> means (fun L => do q <- cylinder L m H Rad; Ok (translate_qlm q (k, 0, 0))) (shifted (k, 0, 0) (of_mass m (solid_cylinder H Rad))) (r + s)).
  { intros k Hk. apply (e_larger _ _ (r + vnorm (k, 0, 0))); [rewrite vnorm_x; lra|]. now apply (e_translate (fun L => cylinder L m H Rad)). }
  assert (A3 := K a Ha). assert (A2 := K b Hb). set (c3 := fun L => do q <- cylinder L m H Rad; Ok (translate_qlm q (a, 0, 0))) in *. set (c2 := fun L => do q <- cylinder L m H Rad; Ok (translate_qlm q (b, 0, 0))) in *.
  assert (S1 := e_add _ _ _ _ _ A3 (e_rotate _ _ _ (2 * PI / 3) 0 0 A3)). assert (S2 := e_add _ _ _ _ _ S1 (e_rotate _ _ _ (4 * PI / 3) 0 0 A3)).
  assert (S3 := e_add _ _ _ _ _ S2 A2). assert (S4 := e_add _ _ _ _ _ S3 (e_rotate _ _ _ PI 0 0 A2)).
  eexists. split; [exact S4|].
  intros L. unfold ligo_rotor, c3, c2, rotor_of. destruct (cylinder L m H Rad) as [q|x]; [|reflexivity]. cbn [bind fold_left].
    destruct (rotate_qlm (translate_qlm q (a, 0, 0)) (2 * PI / 3) 0 0) as [q1|x]; [|reflexivity]. cbn [bind].
    destruct (add_in_place (translate_qlm q (a, 0, 0)) q1) as [q2|x]; [|reflexivity]. cbn [bind].
    destruct (rotate_qlm (translate_qlm q (a, 0, 0)) (4 * PI / 3) 0 0) as [q3|x]; [|reflexivity]. cbn [bind].
    destruct (add_in_place q2 q3) as [q4|x]; [|reflexivity]. cbn [bind]. reflexivity.
Qed.
Lemma virgo_means m H Ri Ro beta r : 0 < H -> 0 <= Ri < Ro -> 0 < beta <= PI -> 0 <= r -> Ro ^ 2 + (H / 2) ^ 2 <= r ^ 2 ->
  exists e, means e (two_arcs m H Ri Ro beta) r /\ forall L, virgo_rotor L m H Ri Ro beta = e L.
Proof.
  intros HH HR Hb Hr Hf. assert (C0 := e_annulus (m / 2) H Ri Ro 0 beta r HH HR Hb Hr Hf). eexists. split; [exact (e_add _ _ _ _ _ C0 (e_rotate _ _ _ PI 0 0 C0))|].
  intros L. unfold virgo_rotor. destruct (annulus L (m / 2) H Ri Ro 0 beta) as [q|x]; reflexivity.
Qed.
(* the force the script prints at rotor angle x tends to the attraction of the turned rotor by the mirror *)
Lemma script_means (rotor : Z -> res marr) e B r mtm htm rtm dx dy x c s : means e B r -> (forall L, rotor L = e L) -> 0 < htm -> 0 < rtm -> 0 <= s -> rtm ^ 2 + (htm / 2) ^ 2 <= s ^ 2 ->
  r + s < vnorm (dx, dy, 0) ->
  exists Fx Fy Fz,
    pair_integral (turned x 0 0 B) r (laid_cylinder mtm htm rtm) s (fun v w => pull (1, 0, 0) v (vadd w (dx, dy, 0))) Fx /\
    pair_integral (turned x 0 0 B) r (laid_cylinder mtm htm rtm) s (fun v w => pull (0, 1, 0) v (vadd w (dx, dy, 0))) Fy /\
    pair_integral (turned x 0 0 B) r (laid_cylinder mtm htm rtm) s (fun v w => pull (0, 0, 1) v (vadd w (dx, dy, 0))) Fz /\
  forall eps, 0 < eps -> exists D, forall L, (D <= L)%Z ->
  exists tot tm f, rotor L = Ok tot /\ mirror_field L mtm htm rtm dx dy = Ok tm /\ script_force L tot tm x c = Ok f /\ near eps f (c * Fx, c * Fy, c * Fz).
Proof.
  intros M Er Hh Hrt Hs Hf Ht. assert (M1 := e_rotate _ _ _ x 0 0 M). assert (M2 := e_rotate _ _ _ (PI / 2) (PI / 2) (- PI / 2) (e_cylinder mtm htm rtm s Hh Hrt Hs Hf)).
  assert (Z0 : vnorm (0, 0, 0) = 0). { rewrite vnorm_xyz. replace (0 ^ 2 + 0 ^ 2 + 0 ^ 2) with 0 by ring. apply sqrt_0. }
  assert (V0 : forall v, vadd v (0, 0, 0) = v). { intros [[p q] k]. unfold vadd. apply v3; ring. }
  destruct (C62_force _ _ _ _ _ _ (dx, dy, 0) 0 0 0 c M1 M2 ltac:(rewrite Z0; lra)) as (Fx & Fy & Fz & HX & HY & HZ & Lim).
  assert (Ext : forall B1 q1 B2 q2 (k k' : vec -> vec -> R) J, (forall v w, k v w = k' v w) -> pair_integral B1 q1 B2 q2 k J -> pair_integral B1 q1 B2 q2 k' J).
  { intros B1 q1 B2 q2 k k' J E (f & g & P1 & P2 & P3). exists f, g. split; [intros; rewrite <- E; now apply P1|]. now split. }
  exists Fx, Fy, Fz. split; [eapply Ext; [|exact HX]; intros v w; cbv beta; now rewrite V0|]. split; [eapply Ext; [|exact HY]; intros v w; cbv beta; now rewrite V0|]. split; [eapply Ext; [|exact HZ]; intros v w; cbv beta; now rewrite V0|].
  intros eps He. destruct (Lim eps He) as (D & HD). exists (Z.max 1 D). intros L HL. destruct (HD L ltac:(lia)) as (q & qs & Q & f & E1 & E2 & E3 & E4 & E5).
  destruct (proj2 (C62_expressions _ _ _ M) L ltac:(lia)) as (tot & Et & _). rewrite Et in E1. cbn [bind] in E1. exists tot, Q, f. split; [now rewrite Er|].
  split; [unfold mirror_field; rewrite <- bind_assoc, E2; exact E3|]. split; [unfold script_force; rewrite E1; exact E4|exact E5].
Qed.
Theorem C62_ligo_script : forall mc hc rc r3 r2 r s mtm htm rtm s' dx dy x c,
  0 < hc -> 0 < rc -> 0 <= r -> rc ^ 2 + (hc / 2) ^ 2 <= r ^ 2 -> Rabs r3 <= s -> Rabs r2 <= s -> 0 < htm -> 0 < rtm -> 0 <= s' -> rtm ^ 2 + (htm / 2) ^ 2 <= s' ^ 2 ->
  r + s + s' < vnorm (dx, dy, 0) ->
  exists Fx Fy Fz,
    pair_integral (turned x 0 0 (five_cylinders mc hc rc r3 r2)) (r + s) (laid_cylinder mtm htm rtm) s' (fun v w => pull (1, 0, 0) v (vadd w (dx, dy, 0))) Fx /\
    pair_integral (turned x 0 0 (five_cylinders mc hc rc r3 r2)) (r + s) (laid_cylinder mtm htm rtm) s' (fun v w => pull (0, 1, 0) v (vadd w (dx, dy, 0))) Fy /\
    pair_integral (turned x 0 0 (five_cylinders mc hc rc r3 r2)) (r + s) (laid_cylinder mtm htm rtm) s' (fun v w => pull (0, 0, 1) v (vadd w (dx, dy, 0))) Fz /\
  forall eps, 0 < eps -> exists D, forall L, (D <= L)%Z ->
  exists tot tm f, ligo_rotor L mc hc rc r3 r2 = Ok tot /\ mirror_field L mtm htm rtm dx dy = Ok tm /\ script_force L tot tm x c = Ok f /\ near eps f (c * Fx, c * Fy, c * Fz).
Proof.
  intros mc hc rc r3 r2 r s mtm htm rtm s' dx dy x c H1 H2 H3 H4 H5 H6 H7 H8 H9 H10 H11. destruct (ligo_means mc hc rc r3 r2 r s H1 H2 H3 H4 H5 H6) as (e & M & E).
  now apply (script_means (fun L => ligo_rotor L mc hc rc r3 r2) e).
Qed.
Theorem C62_virgo_script : forall mc hc irc orc beta r mtm htm rtm s' dx dy x c,
  0 < hc -> 0 <= irc < orc -> 0 < beta <= PI -> 0 <= r -> orc ^ 2 + (hc / 2) ^ 2 <= r ^ 2 -> 0 < htm -> 0 < rtm -> 0 <= s' -> rtm ^ 2 + (htm / 2) ^ 2 <= s' ^ 2 ->
  r + s' < vnorm (dx, dy, 0) ->
  exists Fx Fy Fz,
    pair_integral (turned x 0 0 (two_arcs mc hc irc orc beta)) r (laid_cylinder mtm htm rtm) s' (fun v w => pull (1, 0, 0) v (vadd w (dx, dy, 0))) Fx /\
    pair_integral (turned x 0 0 (two_arcs mc hc irc orc beta)) r (laid_cylinder mtm htm rtm) s' (fun v w => pull (0, 1, 0) v (vadd w (dx, dy, 0))) Fy /\
    pair_integral (turned x 0 0 (two_arcs mc hc irc orc beta)) r (laid_cylinder mtm htm rtm) s' (fun v w => pull (0, 0, 1) v (vadd w (dx, dy, 0))) Fz /\
  forall eps, 0 < eps -> exists D, forall L, (D <= L)%Z ->
  exists tot tm f, virgo_rotor L mc hc irc orc beta = Ok tot /\ mirror_field L mtm htm rtm dx dy = Ok tm /\ script_force L tot tm x c = Ok f /\ near eps f (c * Fx, c * Fy, c * Fz).
Proof.
  intros mc hc irc orc beta r mtm htm rtm s' dx dy x c H1 H2 H3 H4 H5 H6 H7 H8 H9 H10. destruct (virgo_means mc hc irc orc beta r H1 H2 H3 H4 H5) as (e & M & E).
  now apply (script_means (fun L => virgo_rotor L mc hc irc orc beta) e).
Qed.
(* the hypotheses are met: a rotor of five small cylinders and a mirror five units away; a turned box beside a cone *)
Example C62_case : (0 < 1 /\ 1 ^ 2 + (1 / 2) ^ 2 <= (6 / 5) ^ 2 /\ Rabs 1 <= 1 /\ 6 / 5 + 1 + 6 / 5 < vnorm (5, 0, 0)) /\
  means (fun L => do q <- rect_prism L 3 1 1 1 0; rotate_qlm q 1 1 0) (turned 1 1 0 (of_mass 3 (turned_z 0 (box 1 1 1)))) 1 /\
  means (fun L => do q <- cone L 2 1 1 0 PI; Ok (translate_qlm q (0, 0, 1))) (shifted (0, 0, 1) (of_mass 2 (cone_sector 1 1 0 PI))) (1 + vnorm (0, 0, 1)).
Proof.
  assert (V : vnorm (5, 0, 0) = 5) by (rewrite vnorm_x, Rabs_pos_eq; lra). assert (P := PI_RGT_0).
  split; [rewrite V, Rabs_pos_eq by lra; lra|]. split.
  - apply (e_rotate (fun L => rect_prism L 3 1 1 1 0)). apply e_rect_prism; lra.
  - apply (e_translate (fun L => cone L 2 1 1 0 PI)). apply e_cone; lra.
Qed.
Print Assumptions C62_expressions.
Print Assumptions C62_energy.
Print Assumptions C62_force.
Print Assumptions C62_torque.
Print Assumptions C62_ligo_script.
Print Assumptions C62_virgo_script.
