(* C53 (genCAD.py, shapes.py): the solids that are drawn *)
From Coq Require Import Reals List Lra Lia Psatz.
From Verif Require GlibShapes.
From Verif Require Import QlmProofs5 Props_Qlm Props_Qlm2 Props_Shapes2 GlibShapesProofs.
From Verif Require Import Shapes PointSpec GenCad.
Import ListNotations.
Open Scope R_scope.

(* ---- specification ---- *)
(* the solid turned about the z axis *)
Definition turned_region (a : R) (X : region) : region := fun v => exists w, X w /\ v = zrot a w.
(* the solid moved *)
Definition moved_region (t : vec) (X : region) : region := fun v => exists w, X w /\ v = vadd w t.
(* cone cut off at height H, where its radius is r1; radius r2 in the xy plane *)
Definition frustum_region (r1 r2 H beta : R) : region := fun v => let '(x, y, z) := v in 0 <= z <= H /\ in_sector 0 (r2 + (r1 - r2) * z / H) beta x y.
Definition corner_region (X Y Z : R) : region := fun v => let '(x, y, z) := v in 0 <= x /\ 0 <= y /\ 0 <= z /\ x / X + y / Y + z / Z <= 1.
(* a hole of radius r at right angles to its axis, which leans by theta from z towards x, in a plate |z| <= t/2 *)
Definition drilled_region (t r theta : R) : region := fun v => let '(x, y, z) := v in
  Rabs z <= t / 2 /\ (x * cos theta - z * sin theta) ^ 2 + y ^ 2 <= r ^ 2.
(* the mesh occupies exactly the solid *)
Definition draws (m : mesh) (S : region) : Prop := forall v, mset m v <-> S v.
(* a Shape with a mesh that occupies the solid, marked as material or as a hole by the sign of the mass *)
Definition drawn_as (S : region) (mass : R) (r : res shape) : Prop :=
  exists s m, r = Ok s /\ s_mesh s = Some m /\ (pmass m = true <-> 0 < mass) /\ draws m S.

(* ---- proofs ---- *)
Lemma vec_inj3 (a b c a' b' c' : R) : (a, b, c) = (a', b', c') <-> a = a' /\ b = b' /\ c = c'.
Proof. split; [intros E; now injection E|intros (-> & -> & ->); reflexivity]. Qed.
Lemma zrot_inv a v : zrot a (zrot (- a) v) = v.
Proof.
  destruct v as [[x y] z]. unfold zrot. rewrite cos_neg, sin_neg. assert (G := sin2_cos2 a). unfold Rsqr in G.
  apply vec_inj3. repeat split; [transitivity ((sin a * sin a + cos a * cos a) * x)|transitivity ((sin a * sin a + cos a * cos a) * y)]; try ring; rewrite G; ring.
Qed.
Lemma zrot_inv' a v : zrot (- a) (zrot a v) = v.
Proof. rewrite <- (Ropp_involutive a) at 2. apply zrot_inv. Qed.
Lemma rotz_turned a (X Y : vec -> Prop) : (forall v, X v <-> Y v) -> forall v, set_rotz a X v <-> turned_region a Y v.
Proof.
  intros H v. unfold set_rotz, turned_region. split.
  - intros K. exists (zrot (- a) v). split; [now apply H|now rewrite zrot_inv].
  - intros (w & K & ->). rewrite zrot_inv'. now apply H.
Qed.
Lemma set_roty_0 X v : set_roty 0 X v <-> X v.
Proof. destruct v as [[x y] z]. unfold set_roty, yrot. rewrite Ropp_0, cos_0, sin_0. replace (1 * x + 0 * z) with x by ring. replace (- 0 * x + 1 * z) with z by ring. reflexivity. Qed.
Lemma set_rotz_0 X v : set_rotz 0 X v <-> X v.
Proof. destruct v as [[x y] z]. unfold set_rotz, zrot. rewrite Ropp_0, cos_0, sin_0. replace (1 * x - 0 * y) with x by ring. replace (0 * x + 1 * y) with y by ring. reflexivity. Qed.
Lemma rotate_alpha X pm a Y : (forall v, X v <-> Y v) -> exists m, rotate_mesh (Some (mkmesh X pm)) a 0 0 = Ok m /\ pmass m = pm /\ draws m (turned_region a Y).
Proof.
  intros H. eexists. split; [reflexivity|]. split; [reflexivity|]. intros v. cbn [mset]. rewrite set_rotz_0, set_roty_0. now apply rotz_turned.
Qed.
Lemma zrot_polar a r p z : zrot a (r * cos p, r * sin p, z) = (r * cos (a + p), r * sin (a + p), z).
Proof. unfold zrot. rewrite cos_plus, sin_plus. apply vec_inj3; repeat split; ring. Qed.

(* the hull of three points is that of barycentric coordinates *)
Lemma forall_cons {A} (P : A -> Prop) a l : List.Forall P (a :: l) <-> P a /\ List.Forall P l.
Proof. split; [intros H; now inversion H|intros [? ?]; now constructor]. Qed.
Lemma hull3 a b c p : hull [a; b; c] p <-> exists s t u, 0 <= s /\ 0 <= t /\ 0 <= u /\ s + t + u = 1 /\ p = vadd (vscal s a) (vadd (vscal t b) (vscal u c)).
Proof.
  assert (V : forall s t u, vsum (map (fun '(a, v) => vscal a v) (combine [s; t; u] [a; b; c])) = vadd (vscal s a) (vadd (vscal t b) (vscal u c))).
  { intros. cbn [combine map]. unfold vsum. cbn [fold_right]. destruct a as [[? ?] ?], b as [[? ?] ?], c as [[? ?] ?]. unfold vadd, vscal, v0. apply vec_inj3; repeat split; ring. }
  split.
  - intros (w & L & F & E & ->). destruct w as [|s [|t [|u [|? ?]]]]; try discriminate. rewrite !forall_cons in F. cbn [fold_right] in E. exists s, t, u. rewrite V. repeat split; try tauto; lra.
  - intros (s & t & u & Hs & Ht & Hu & E & ->). exists [s; t; u]. split; [reflexivity|]. split; [rewrite !forall_cons; repeat split; (assumption || apply List.Forall_nil)|]. split; [cbn [fold_right]; lra|]. symmetry. apply V.
Qed.
Lemma hull4 a b c d p : hull [a; b; c; d] p <-> exists s t u w, 0 <= s /\ 0 <= t /\ 0 <= u /\ 0 <= w /\ s + t + u + w = 1 /\
  p = vadd (vscal s a) (vadd (vscal t b) (vadd (vscal u c) (vscal w d))).
Proof.
  assert (V : forall s t u w, vsum (map (fun '(a, v) => vscal a v) (combine [s; t; u; w] [a; b; c; d])) = vadd (vscal s a) (vadd (vscal t b) (vadd (vscal u c) (vscal w d)))).
  { intros. cbn [combine map]. unfold vsum. cbn [fold_right]. destruct a as [[? ?] ?], b as [[? ?] ?], c as [[? ?] ?], d as [[? ?] ?]. unfold vadd, vscal, v0. apply vec_inj3; repeat split; ring. }
  split.
  - intros (w & L & F & E & ->). destruct w as [|s [|t [|u [|w [|? ?]]]]]; try discriminate. rewrite !forall_cons in F. cbn [fold_right] in E. exists s, t, u, w. rewrite V. repeat split; try tauto; lra.
  - intros (s & t & u & w & Hs & Ht & Hu & Hw & E & ->). exists [s; t; u; w]. split; [reflexivity|]. split; [rewrite !forall_cons; repeat split; (assumption || apply List.Forall_nil)|]. split; [cbn [fold_right]; lra|]. symmetry. apply V.
Qed.
(* barycentric division *)
Lemma div_in (x d : R) : 0 < d -> 0 <= x <= d -> 0 <= x / d <= 1.
Proof.
  intros Hd [H0 H1]. split; [apply Rmult_le_pos; [assumption|left; now apply Rinv_0_lt_compat]|]. apply (Rmult_le_reg_r d); [assumption|]. unfold Rdiv. rewrite Rmult_assoc, Rinv_l by lra. lra.
Qed.
Lemma tri_apex d y1 y2 x y : 0 < d -> y1 < y2 -> triangle (0, 0) (d, y1) (d, y2) x y <-> 0 <= x <= d /\ x * y1 / d <= y <= x * y2 / d.
Proof.
  intros Hd Hy. unfold triangle. cbn [fst snd]. rewrite hull3. split.
  - intros (s & t & u & Hs & Ht & Hu & E & P). unfold vadd, vscal in P. apply vec_inj3 in P. destruct P as (-> & -> & _).
    assert (K : s * 0 + (t * d + u * d) = (t + u) * d) by ring. rewrite K. split; [split; nra|].
    replace ((t + u) * d * y1 / d) with ((t + u) * y1) by (field; lra). replace ((t + u) * d * y2 / d) with ((t + u) * y2) by (field; lra). split; nra.
  - intros [Hx [H1 H2]]. set (q := x / d). assert (Q := div_in x d Hd Hx). fold q in Q.
    replace (x * y1 / d) with (q * y1) in H1 by (unfold q; field; lra). replace (x * y2 / d) with (q * y2) in H2 by (unfold q; field; lra).
    exists (1 - q), ((q * y2 - y) / (y2 - y1)), ((y - q * y1) / (y2 - y1)).
    split; [lra|]. split; [apply Rmult_le_pos; [lra|left; apply Rinv_0_lt_compat; lra]|]. split; [apply Rmult_le_pos; [lra|left; apply Rinv_0_lt_compat; lra]|].
    split; [field; lra|]. unfold vadd, vscal. apply vec_inj3. unfold q. repeat split; field; lra.
Qed.
Lemma abs_half z t : Rabs z <= t / 2 <-> - t / 2 <= z <= t / 2.
Proof. unfold Rabs. destruct (Rcase_abs z); lra. Qed.
Lemma extrude_tri H d y1 y2 v : 0 < d -> y1 < y2 -> extrude H (triangle (0, 0) (d, y1) (d, y2)) v <-> triangle_region d y1 y2 H v.
Proof. intros Hd Hy. destruct v as [[x y] z]. unfold extrude, triangle_region. rewrite tri_apex, abs_half by assumption. tauto. Qed.
Lemma triangle_swap a b c x y : triangle a b c x y <-> triangle a c b x y.
Proof.
  unfold triangle. rewrite !hull3. split; intros (s & t & u & Hs & Ht & Hu & E & P); exists s, u, t; repeat split; try assumption; try lra; rewrite P;
  unfold vadd, vscal; apply vec_inj3; repeat split; ring.
Qed.
Lemma pm_iff mass : posm mass = true <-> 0 < mass.
Proof. unfold posm, rlt. destruct (Rlt_dec 0 mass); split; intros; try lra; try discriminate; reflexivity. Qed.
Lemma drawn_prim S inner lmax mass m q : pmass m = posm mass -> draws m S -> (exists a, q = Ok a) -> drawn_as S mass (prim inner lmax mass m q).
Proof. intros P D (a & ->). eexists _, m. split; [reflexivity|]. split; [reflexivity|]. split; [rewrite P; apply pm_iff|exact D]. Qed.

(* ---- C53: meshes that are the documented solid ---- *)
Lemma annulus_set H Ri Ro ph v : (exists r p z, Ri <= r <= Ro /\ 0 <= p <= 2 * ph /\ - H / 2 <= z <= H / 2 /\ v = (r * cos p, r * sin p, z)) <->
  turned_region ph (ring_sector Ri Ro H ph) v.
Proof.
  split.
  - intros (r & p & z & Hr & Hp & Hz & ->). exists (r * cos (p - ph), r * sin (p - ph), z). split.
    + unfold ring_sector. split; [exists r, (p - ph); repeat split; lra|now apply abs_half].
    + rewrite zrot_polar. replace (ph + (p - ph)) with p by ring. reflexivity.
  - intros ([[x y] z] & (S & Hz) & ->). destruct S as (r & p & Hr & Hp & -> & ->). apply abs_half in Hz. exists r, (ph + p), z. rewrite zrot_polar. repeat split; lra.
Qed.
Lemma turned_twice a b X v : turned_region a (turned_region b X) v <-> turned_region (a + b) X v.
Proof.
  assert (E : forall w, zrot a (zrot b w) = zrot (a + b) w).
  { intros [[x y] z]. unfold zrot. rewrite cos_plus, sin_plus. apply vec_inj3; repeat split; ring. }
  split.
  - intros (w & (u & K & ->) & ->). exists u. now rewrite E.
  - intros (u & K & ->). exists (zrot b u). split; [now exists u|now rewrite E].
Qed.
Lemma turned_iff a X Y v : (forall w, X w <-> Y w) -> turned_region a X v <-> turned_region a Y v.
Proof. intros H. unfold turned_region. split; intros (w & K & ->); exists w; (split; [now apply H|reflexivity]). Qed.
Theorem C53_annulus : forall pm H Ri Ro phic phih, draws (cad_annulus pm H Ri Ro phic phih) (turned_region phic (ring_sector Ri Ro H phih)).
Proof.
  intros pm H Ri Ro pc ph v. unfold cad_annulus. cbn [mset]. rewrite (rotz_turned _ _ _ (annulus_set H Ri Ro ph)), turned_twice.
  replace (pc - ph + ph) with pc by ring. reflexivity.
Qed.
Theorem C53_Annulus : forall lmax mass H Ri Ro phic phih, (0 <= lmax)%Z -> 0 < H -> 0 <= Ri < Ro -> 0 < phih <= PI ->
  drawn_as (turned_region phic (ring_sector Ri Ro H phih)) mass (Annulus lmax true mass H Ri Ro phic phih).
Proof.
  intros L mass H Ri Ro pc ph HL HH HR Hp. destruct (C35_annulus L mass H Ri Ro pc ph HL HH HR Hp) as (q & E & _).
  apply drawn_prim; [reflexivity|apply C53_annulus|rewrite E; now exists q].
Qed.
(* revolving a figure of the half plane r >= 0 *)
Lemma revolved (F : R -> R -> Prop) (G : R -> R -> R -> Prop) ph v :
  (forall z x y, G z x y <-> exists r q, F r z /\ - ph <= q <= ph /\ x = r * cos q /\ y = r * sin q) ->
  (exists r p z, F r z /\ 0 <= p <= 2 * ph /\ v = (r * cos p, r * sin p, z)) <-> turned_region ph (fun v => let '(x, y, z) := v in G z x y) v.
Proof.
  intros HG. split.
  - intros (r & p & z & Hr & Hp & ->). exists (r * cos (p - ph), r * sin (p - ph), z). split.
    + apply HG. exists r, (p - ph). repeat split; try assumption; lra.
    + rewrite zrot_polar. replace (ph + (p - ph)) with p by ring. reflexivity.
  - intros ([[x y] z] & S & ->). apply HG in S. destruct S as (r & p & Hr & Hp & -> & ->). exists r, (ph + p), z. rewrite zrot_polar. repeat split; try assumption; lra.
Qed.
Lemma cone_figure r2 H r z : 0 < H -> 0 < r2 -> triangle (0, 0) (r2, 0) (0, H) r z <-> 0 <= z <= H /\ 0 <= r <= r2 * (1 - z / H).
Proof.
  intros HH Hr. unfold triangle. cbn [fst snd]. rewrite hull3. split.
  - intros (s & t & u & Hs & Ht & Hu & E & P). unfold vadd, vscal in P. apply vec_inj3 in P. destruct P as (-> & -> & _).
    replace (s * 0 + (t * 0 + u * H)) with (u * H) by ring. replace (u * H / H) with u by (field; lra). replace (s * 0 + (t * r2 + u * 0)) with (t * r2) by ring. split; split; nra.
  - intros [Hz H1]. assert (Q := div_in z H HH Hz). set (u := z / H) in *. assert (Z : z = u * H) by (unfold u; field; lra).
    exists (1 - r / r2 - u), (r / r2), u. assert (r / r2 <= 1 - u).
    { apply (Rmult_le_reg_r r2); [assumption|]. unfold Rdiv. rewrite Rmult_assoc, Rinv_l by lra. lra. }
    repeat split; try lra; [apply Rmult_le_pos; [lra|left; now apply Rinv_0_lt_compat]|]. unfold vadd, vscal. apply vec_inj3. rewrite Z. repeat split; field; lra.
Qed.
Lemma frustum_figure r1 r2 H r z : 0 < H -> 0 < r1 -> 0 < r2 -> quadrangle (0, 0) (r2, 0) (r1, H) (0, H) r z <-> 0 <= z <= H /\ 0 <= r <= r2 + (r1 - r2) * z / H.
Proof.
  intros HH Hr1 Hr. unfold quadrangle. cbn [fst snd]. rewrite hull4. split.
  - intros (s & t & u & w & Hs & Ht & Hu & Hw & E & P). unfold vadd, vscal in P. apply vec_inj3 in P. destruct P as (-> & -> & _).
    replace (s * 0 + (t * 0 + (u * H + w * H))) with ((u + w) * H) by ring. replace ((r1 - r2) * ((u + w) * H) / H) with ((r1 - r2) * (u + w)) by (field; lra).
    split; split; nra.
  - intros [Hz H1]. assert (Q := div_in z H HH Hz). set (u := z / H) in *. assert (Z : z = u * H) by (unfold u; field; lra).
    replace ((r1 - r2) * z / H) with ((r1 - r2) * u) in H1 by (unfold u; field; lra).
    set (w := r2 * (1 - u) + r1 * u) in *. assert (Hw : 0 < w) by (unfold w; destruct (Rle_lt_dec u 0); nra).
    assert (Qr := div_in r w Hw). set (q := r / w) in *. assert (Er : r = q * w) by (unfold q; field; lra).
    assert (0 <= q <= 1) by (apply Qr; unfold w; lra). clearbody q u. exists ((1 - q) * (1 - u)), (q * (1 - u)), (q * u), ((1 - q) * u).
    repeat split; try nra. unfold vadd, vscal. apply vec_inj3. rewrite Z, Er. unfold w. repeat split; ring.
Qed.
Lemma cone_drawn pm H r1 r2 pc ph : 0 < H -> 0 <= r1 -> 0 < r2 ->
  exists m, cad_cone pm H r1 r2 pc ph = Ok m /\ pmass m = pm /\ draws m (turned_region pc (frustum_region r1 r2 H ph)).
Proof.
  intros HH Hr1 Hr2. unfold cad_cone. cbv zeta.
  edestruct (rotate_alpha (fun v => exists r p z, (if Req_EM_T r1 0 then triangle (0, 0) (r2, 0) (0, H) else quadrangle (0, 0) (r2, 0) (r1, H) (0, H)) r z /\ 0 <= p <= 2 * ph /\ v = (r * cos p, r * sin p, z)) pm (pc - ph)) as (m & E & P & D).
  { intros v. apply (revolved _ (fun z x y => 0 <= z <= H /\ in_sector 0 (r2 + (r1 - r2) * z / H) ph x y)). intros z x y. unfold in_sector.
    assert (F : forall r, (if Req_EM_T r1 0 then triangle (0, 0) (r2, 0) (0, H) else quadrangle (0, 0) (r2, 0) (r1, H) (0, H)) r z <-> 0 <= z <= H /\ 0 <= r <= r2 + (r1 - r2) * z / H).
    { intros r. destruct (Req_EM_T r1 0) as [->|N]; [|apply frustum_figure; lra]. rewrite cone_figure by assumption.
      replace (r2 * (1 - z / H)) with (r2 + (0 - r2) * z / H) by (field; lra). reflexivity. }
    split.
    - intros [Hz (r & q & A & B & C)]. exists r, q. rewrite F. tauto.
    - intros (r & q & A & B & C). rewrite F in A. split; [tauto|]. exists r, q. tauto. }
  rewrite E. exists m. split; [reflexivity|]. split; [exact P|]. intros v. rewrite (D v), turned_twice. replace (pc - ph + ph) with pc by ring. reflexivity.
Qed.
Theorem C53_cone : forall pm H r1 r2 phic phih, 0 < H -> 0 <= r1 -> 0 < r2 ->
  exists m, cad_cone pm H r1 r2 phic phih = Ok m /\ pmass m = pm /\ draws m (turned_region phic (frustum_region r1 r2 H phih)).
Proof. exact cone_drawn. Qed.
Theorem C53_Cone : forall lmax inner mass P Rad phic phih, (0 <= lmax)%Z -> 0 < P -> 0 < Rad -> 0 < phih <= PI ->
  drawn_as (turned_region phic (cone_region Rad P phih)) mass (Cone lmax inner mass P Rad phic phih).
Proof.
  intros L inner mass P Rad pc ph HL HP HR Hph. destruct (C35_cone L mass P Rad pc ph HL HP HR Hph) as (q & E & _).
  destruct (cone_drawn (posm mass) P 0 Rad pc ph HP ltac:(lra) HR) as (m & Em & Pm & D). unfold Cone. rewrite Em. cbn [bind].
  apply drawn_prim; [exact Pm| |destruct inner; [rewrite E; now exists q|now exists (zeros L)]].
  intros v. rewrite (D v). apply turned_iff. intros [[x y] z]. unfold frustum_region, cone_region. replace (Rad + (0 - Rad) * z / P) with (Rad * (1 - z / P)) by (field; lra). reflexivity.
Qed.
Lemma brick_box a b H v : box_set a b H v <-> brick v0 a b H v.
Proof. destruct v as [[x y] z]. unfold box_set, brick, v0. rewrite !abs_half. split; intros (A & B & C); repeat split; lra. Qed.
Theorem C53_RectPrism : forall lmax inner mass H a b phic, (0 <= lmax)%Z -> 0 < H -> 0 < a -> 0 < b ->
  drawn_as (turned_region phic (brick v0 a b H)) mass (RectPrism lmax inner mass H a b phic).
Proof.
  intros L inner mass H a b pc HL HH Ha Hb. destruct (C36_rect_prism L mass H a b pc HL HH Ha Hb) as (q & E & _).
  destruct (rotate_alpha (box_set a b H) (posm mass) pc _ (brick_box a b H)) as (m & Em & Pm & D). unfold RectPrism, cad_rect_prism. rewrite Em. cbn [bind].
  apply drawn_prim; [exact Pm|exact D|destruct inner; [rewrite E; now exists q|now exists (zeros L)]].
Qed.
Theorem C53_TriPrism : forall lmax inner mass H d y1 y2, (0 <= lmax)%Z -> 0 < H -> 0 < d -> y1 <> y2 ->
  drawn_as (triangle_region d (Rmin y1 y2) (Rmax y1 y2) H) mass (TriPrism lmax inner mass H d y1 y2).
Proof.
  intros L inner mass H d y1 y2 HL HH Hd Hy. destruct (C36_tri_prism L mass H d y1 y2 HL HH ltac:(lra) Hy) as (q & E & _).
  apply drawn_prim; [reflexivity| |destruct inner; [rewrite E; now exists q|now exists (zeros L)]].
  intros v. unfold cad_tri_prism. cbn [mset]. unfold Rmin, Rmax. destruct (Rle_dec y1 y2) as [G|G].
  - apply extrude_tri; lra.
  - rewrite <- extrude_tri by lra. destruct v as [[x y] z]. unfold extrude. now rewrite triangle_swap.
Qed.
Theorem C53_tri_iso_prism : forall pm H a d phic, 0 < a -> 0 < d ->
  exists m, cad_tri_iso_prism pm H a d phic = Ok m /\ pmass m = pm /\ draws m (turned_region phic (triangle_region d (- a / 2) (a / 2) H)).
Proof. intros pm H a d pc Ha Hd. apply rotate_alpha. intros v. apply extrude_tri; lra. Qed.
Theorem C53_tri_iso_prism2 : forall pm H Rad phic phih, 0 < Rad -> 0 < phih < PI / 2 ->
  exists m, cad_tri_iso_prism2 pm H Rad phic phih = Ok m /\ pmass m = pm /\
  draws m (turned_region phic (triangle_region (Rad * cos phih) (- (Rad * sin phih)) (Rad * sin phih) H)).
Proof.
  intros pm H Rad pc ph HR Hp. assert (0 < cos ph) by (apply cos_gt_0; lra). assert (0 < sin ph) by (apply sin_gt_0; lra).
  apply rotate_alpha. intros v. rewrite <- extrude_tri by nra. destruct v as [[x y] z]. unfold extrude. now rewrite triangle_swap.
Qed.
Lemma apex_set X y1 y2 Z v : 0 < X -> 0 < Z -> y1 < y2 -> hull [(0, 0, 0); (X, y1, 0); (X, y2, 0); (0, 0, Z)] v <-> tetra_region X y1 y2 Z v.
Proof.
  intros HX HZ Hy. rewrite hull4. destruct v as [[x y] z]. unfold tetra_region. split.
  - intros (s & t & u & w & Hs & Ht & Hu & Hw & E & P). unfold vadd, vscal in P. apply vec_inj3 in P. destruct P as (-> & -> & ->).
    replace ((s * 0 + (t * X + (u * X + w * 0))) * y1 / X) with ((t + u) * y1) by (field; lra). replace ((s * 0 + (t * X + (u * X + w * 0))) * y2 / X) with ((t + u) * y2) by (field; lra).
    replace ((s * 0 + (t * X + (u * X + w * 0))) / X) with (t + u) by (field; lra). replace ((s * 0 + (t * 0 + (u * 0 + w * Z))) / Z) with w by (field; lra).
    repeat split; nra.
  - intros (Hx & Hz & [H1 H2] & Hs). set (q := x / X) in *. set (w := z / Z) in *.
    assert (0 <= q) by (apply Rmult_le_pos; [assumption|left; now apply Rinv_0_lt_compat]). assert (0 <= w) by (apply Rmult_le_pos; [assumption|left; now apply Rinv_0_lt_compat]).
    replace (x * y1 / X) with (q * y1) in H1 by (unfold q; field; lra). replace (x * y2 / X) with (q * y2) in H2 by (unfold q; field; lra).
    exists (1 - q - w), ((q * y2 - y) / (y2 - y1)), ((y - q * y1) / (y2 - y1)), w.
    split; [lra|]. split; [apply Rmult_le_pos; [lra|left; apply Rinv_0_lt_compat; lra]|]. split; [apply Rmult_le_pos; [lra|left; apply Rinv_0_lt_compat; lra]|].
    split; [lra|]. split; [field; lra|]. unfold vadd, vscal. apply vec_inj3. unfold q, w. repeat split; field; lra.
Qed.
Lemma hull4_swap a b c d p : hull [a; b; c; d] p <-> hull [a; c; b; d] p.
Proof.
  rewrite !hull4. destruct a as [[? ?] ?], b as [[? ?] ?], c as [[? ?] ?], d as [[? ?] ?].
  split; intros (s & t & u & w & Hs & Ht & Hu & Hw & E & P); exists s, u, t, w; repeat split; try assumption; try lra; rewrite P; unfold vadd, vscal; apply vec_inj3; repeat split; ring.
Qed.
Theorem C53_Tetrahedron : forall lmax inner mass x y1 y2 z, (0 <= lmax)%Z -> 0 < x -> y1 <> y2 -> 0 < z ->
  drawn_as (tetra_region x (Rmin y1 y2) (Rmax y1 y2) z) mass (Tetrahedron lmax inner mass x y1 y2 z).
Proof.
  intros L inner mass x y1 y2 z HL Hx Hy Hz. destruct (C36_tetrahedron2 L mass x y1 y2 z HL Hx Hy Hz) as (q & E & _).
  apply drawn_prim; [reflexivity| |destruct inner; [rewrite E; now exists q|now exists (zeros L)]].
  intros v. unfold cad_tetrahedron2. cbn [mset]. unfold Rmin, Rmax. destruct (Rle_dec y1 y2) as [G|G].
  - apply apex_set; lra.
  - rewrite hull4_swap. apply apex_set; lra.
Qed.
Theorem C53_tetrahedron : forall pm X Y Z, 0 < X -> 0 < Y -> 0 < Z -> draws (cad_tetrahedron pm X Y Z) (corner_region X Y Z).
Proof.
  intros pm X Y Z HX HY HZ [[x y] z]. unfold cad_tetrahedron. cbn [mset]. rewrite hull4. unfold corner_region. split.
  - intros (s & t & u & w & Hs & Ht & Hu & Hw & E & P). unfold vadd, vscal in P. apply vec_inj3 in P. destruct P as (-> & -> & ->).
    replace ((s * 0 + (t * X + (u * 0 + w * 0))) / X) with t by (field; lra). replace ((s * 0 + (t * 0 + (u * Y + w * 0))) / Y) with u by (field; lra). replace ((s * 0 + (t * 0 + (u * 0 + w * Z))) / Z) with w by (field; lra).
    repeat split; nra.
  - intros (Hx & Hy & Hz & Hs). exists (1 - x / X - y / Y - z / Z), (x / X), (y / Y), (z / Z).
    assert (0 <= x / X) by (apply Rmult_le_pos; [assumption|left; now apply Rinv_0_lt_compat]). assert (0 <= y / Y) by (apply Rmult_le_pos; [assumption|left; now apply Rinv_0_lt_compat]). assert (0 <= z / Z) by (apply Rmult_le_pos; [assumption|left; now apply Rinv_0_lt_compat]).
    repeat split; try lra. unfold vadd, vscal. apply vec_inj3. repeat split; field; lra.
Qed.
(* inner Sphere, at its centre *)
Theorem C53_Sphere : forall lmax mass Rad center, (0 <= lmax)%Z -> 0 < Rad -> drawn_as (moved_region center (ball_region Rad)) mass (Sphere lmax true mass Rad center).
Proof.
  intros L mass Rad t HL HR. destruct (C49_Sphere L mass Rad t HL HR) as (s & E & _). unfold drawn_as. rewrite E. exists s, (mkmesh (set_translate t (mset (cad_sphere (posm mass) Rad))) (posm mass)).
  split; [reflexivity|]. split; [|split].
  - unfold Sphere in E. cbn [prim bind] in E. unfold shape_translate in E. cbn in E. injection E as <-. reflexivity.
  - apply pm_iff.
  - intros v. cbn [mset cad_sphere]. unfold set_translate, moved_region, ball_region.
    assert (B : forall x y z, x ^ 2 + y ^ 2 + z ^ 2 <= Rad ^ 2 <-> vnorm (x, y, z) <= Rad).
    { intros x y z. unfold vnorm, vdot. replace (x * x + y * y + z * z) with (x ^ 2 + y ^ 2 + z ^ 2) by ring. split; intros K.
      - rewrite <- (sqrt_pow2 Rad) by lra. now apply sqrt_le_1_alt.
      - replace (x ^ 2 + y ^ 2 + z ^ 2) with (sqrt (x ^ 2 + y ^ 2 + z ^ 2) ^ 2) by (rewrite pow2_sqrt; [reflexivity|nra]). apply pow_incr. split; [apply sqrt_pos|assumption]. }
    split.
    + intros K. exists (vsub v t). destruct v as [[x y] z], t as [[a b] c]. unfold vsub in *. cbn in K. split; [now apply B|]. unfold vadd. apply vec_inj3; repeat split; ring.
    + intros (w & K & ->). destruct w as [[x y] z], t as [[a b] c]. unfold vadd, vsub. replace (x + a - a) with x by ring. replace (y + b - b) with y by ring. replace (z + c - c) with z by ring. cbn. apply B in K. cbn in K. exact K.
Qed.

(* ---- C53: pyramid, trapezoid, polygon ---- *)
(* a rectangle and, above it, another one: corners by signs *)
Definition wt4 (a b : R) : list R := [(1 + a) * (1 + b) / 4; (1 + a) * (1 - b) / 4; (1 - a) * (1 - b) / 4; (1 - a) * (1 + b) / 4].
Lemma wt4_nonneg a b k : -1 <= a <= 1 -> -1 <= b <= 1 -> 0 <= k -> List.Forall (fun c => 0 <= c) (map (Rmult k) (wt4 a b)).
Proof.
  intros Ha Hb Hk. unfold wt4. cbn [map]. rewrite !forall_cons. repeat split; try apply List.Forall_nil; apply Rmult_le_pos; try assumption;
  (apply Rmult_le_pos; [apply Rmult_le_pos; lra|lra]).
Qed.
Lemma div_abs x d : 0 < d -> Rabs x <= d -> -1 <= x / d <= 1.
Proof.
  intros Hd H. assert (G : - d <= x <= d) by (unfold Rabs in H; destruct (Rcase_abs x); lra).
  split; apply (Rmult_le_reg_r d); try assumption; unfold Rdiv; rewrite Rmult_assoc, Rinv_l by lra; lra.
Qed.
Definition linear (f : vec -> R) : Prop := (forall a v, f (vscal a v) = a * f v) /\ (forall u v, f (vadd u v) = f u + f v) /\ f v0 = 0.
Lemma lin3 s t w : linear (fun v : vec => let '(a, b, c) := v in s * a + t * b + w * c).
Proof. split; [|split]; [intros a [[? ?] ?]; unfold vscal; ring|intros [[? ?] ?] [[? ?] ?]; unfold vadd; ring|unfold v0; ring]. Qed.
Lemma hull_le vs x y z s t w c : hull vs (x, y, z) -> (forall v, In v vs -> (let '(a, b, d) := v in s * a + t * b + w * d) <= c) -> s * x + t * y + w * z <= c.
Proof. intros H K. destruct (lin3 s t w) as (A & B & D). exact (hull_bound vs (x, y, z) _ c A B D K H). Qed.
Lemma abs_le x c : Rabs x <= c <-> - c <= x <= c.
Proof. unfold Rabs. destruct (Rcase_abs x); lra. Qed.
Ltac corners := let K := fresh in intros ? K; cbn [In] in K; repeat (destruct K as [<-|K]); try destruct K.
Lemma pyramid_set X Y Z v : 0 < X -> 0 < Y -> 0 < Z -> hull [(X, Y, 0); (X, - Y, 0); (- X, - Y, 0); (- X, Y, 0); (0, 0, Z)] v <-> pyramid_region X Y Z v.
Proof.
  intros HX HY HZ. destruct v as [[x y] z]. unfold pyramid_region. rewrite !abs_le. split.
  - intros H.
    assert (B1 := hull_le _ _ _ _ 0 0 (-1) 0 H). assert (B2 := hull_le _ _ _ _ 0 0 1 Z H).
    assert (B3 := hull_le _ _ _ _ 1 0 (X / Z) X H). assert (B4 := hull_le _ _ _ _ (-1) 0 (X / Z) X H).
    assert (B5 := hull_le _ _ _ _ 0 1 (Y / Z) Y H). assert (B6 := hull_le _ _ _ _ 0 (-1) (Y / Z) Y H). clear H.
    assert (EX : X / Z * Z = X) by (field; lra). assert (EY : Y / Z * Z = Y) by (field; lra).
    assert (FX : X * (1 - z / Z) = X - X / Z * z) by (field; lra). assert (FY : Y * (1 - z / Z) = Y - Y / Z * z) by (field; lra). rewrite FX, FY.
    assert (-1 * z <= 0). { replace (-1 * z) with (0 * x + 0 * y + -1 * z) by ring. apply B1. corners; lra. }
    assert (z <= Z). { replace z with (0 * x + 0 * y + 1 * z) by ring. apply B2. corners; lra. }
    assert (1 * x + 0 * y + X / Z * z <= X) by (apply B3; corners; lra). assert (-1 * x + 0 * y + X / Z * z <= X) by (apply B4; corners; lra).
    assert (0 * x + 1 * y + Y / Z * z <= Y) by (apply B5; corners; lra). assert (0 * x + -1 * y + Y / Z * z <= Y) by (apply B6; corners; lra). lra.
  - intros (Hz & Hx & Hy). assert (Q := div_in z Z HZ Hz). set (u := z / Z) in *. assert (Ez : z = u * Z) by (unfold u; field; lra). clearbody u. subst z.
    destruct (Req_dec u 1) as [->|N].
    + exists [0; 0; 0; 0; 1]. split; [reflexivity|]. split; [rewrite !forall_cons; repeat split; try apply List.Forall_nil; lra|]. split; [cbn [fold_right]; lra|].
      cbn. apply vec_inj3. repeat split; lra.
    + set (k := 1 - u) in *. assert (Hk : 0 < k) by (unfold k; lra).
      set (a := x / (X * k)). set (b := y / (Y * k)).
      assert (Ha : -1 <= a <= 1) by (apply div_abs; [nra|apply abs_le; lra]). assert (Hb : -1 <= b <= 1) by (apply div_abs; [nra|apply abs_le; lra]).
      exists (map (Rmult k) (wt4 a b) ++ [u]). split; [reflexivity|]. split; [apply List.Forall_app; split; [apply wt4_nonneg; lra|rewrite forall_cons; split; [lra|apply List.Forall_nil]]|].
      split; [cbn; unfold k; field|]. assert (Ex : x = k * a * X) by (unfold a; field; lra). assert (Ey : y = k * b * Y) by (unfold b; field; lra).
      cbn. apply vec_inj3. rewrite Ex, Ey. clearbody k a b. repeat split; field.
Qed.
(* Pyramid: half the base of the solid whose moments are computed (base [-x,x] x [-y,y]) *)
Theorem C53_Pyramid_is_half_size : forall lmax inner mass x y z, (0 <= lmax)%Z -> 0 < x -> 0 < y -> 0 < z ->
  drawn_as (pyramid_region (x / 2) (y / 2) z) mass (Pyramid lmax inner mass x y z).
Proof.
  intros L inner mass x y z HL Hx Hy Hz. destruct (C36_pyramid L mass x y z HL Hx Hy Hz) as (q & E & _).
  apply drawn_prim; [reflexivity| |destruct inner; [rewrite E; now exists q|now exists (zeros L)]].
  intros v. unfold cad_pyramid. cbn [mset]. replace (- y / 2) with (- (y / 2)) by field. replace (- x / 2) with (- (x / 2)) by field. apply pyramid_set; lra.
Qed.
(* trapezoid: the height is along z and the thickness along y, not along x and z as documented *)
Theorem C53_trapezoid : forall pm t w1 w2 h x y z, 0 < t -> 0 < w1 -> 0 < w2 -> 0 < h ->
  mset (cad_trapezoid pm t w1 w2 h) (x, y, z) <-> 0 <= z <= h /\ Rabs y <= t / 2 /\ Rabs x <= (w1 + (w2 - w1) * z / h) / 2.
Proof.
  intros pm t w1 w2 h x y z Ht H1 H2 Hh. unfold cad_trapezoid. cbn [mset]. rewrite !abs_le. split.
  - intros H.
    assert (B1 := hull_le _ _ _ _ 0 0 (-1) 0 H). assert (B2 := hull_le _ _ _ _ 0 0 1 h H).
    assert (B3 := hull_le _ _ _ _ 1 0 ((w1 - w2) / 2 / h) (w1 / 2) H). assert (B4 := hull_le _ _ _ _ (-1) 0 ((w1 - w2) / 2 / h) (w1 / 2) H).
    assert (B5 := hull_le _ _ _ _ 0 1 0 (t / 2) H). assert (B6 := hull_le _ _ _ _ 0 (-1) 0 (t / 2) H). clear H.
    assert (EX : (w1 - w2) / 2 / h * h = (w1 - w2) / 2) by (field; lra).
    replace ((w1 + (w2 - w1) * z / h) / 2) with (w1 / 2 - (w1 - w2) / 2 / h * z) by (field; lra).
    assert (-1 * z <= 0). { replace (-1 * z) with (0 * x + 0 * y + -1 * z) by ring. apply B1. corners; lra. }
    assert (z <= h). { replace z with (0 * x + 0 * y + 1 * z) by ring. apply B2. corners; lra. }
    assert (1 * x + 0 * y + (w1 - w2) / 2 / h * z <= w1 / 2) by (apply B3; corners; lra). assert (-1 * x + 0 * y + (w1 - w2) / 2 / h * z <= w1 / 2) by (apply B4; corners; lra).
    assert (0 * x + 1 * y + 0 * z <= t / 2) by (apply B5; corners; lra). assert (0 * x + -1 * y + 0 * z <= t / 2) by (apply B6; corners; lra). lra.
  - intros (Hz & Hy & Hx). assert (Q := div_in z h Hh Hz). set (u := z / h) in *. assert (Ez : z = u * h) by (unfold u; field; lra). clearbody u. subst z.
    replace ((w1 + (w2 - w1) * (u * h) / h) / 2) with ((w1 * (1 - u) + w2 * u) / 2) in Hx by (field; lra). set (w := w1 * (1 - u) + w2 * u) in *.
    assert (Hw : 0 < w) by (unfold w; destruct (Rle_lt_dec u 0); nra).
    set (a := x / (w / 2)). set (b := y / (t / 2)).
    assert (Ha : -1 <= a <= 1) by (apply div_abs; [lra|apply abs_le; lra]). assert (Hb : -1 <= b <= 1) by (apply div_abs; [lra|apply abs_le; lra]).
    exists (map (Rmult (1 - u)) (wt4 a b) ++ map (Rmult u) (wt4 a b)). split; [reflexivity|]. split; [apply List.Forall_app; split; apply wt4_nonneg; lra|].
    split; [cbn; field|]. assert (Ex : x = a * (w / 2)) by (unfold a; field; lra). assert (Ey : y = b * (t / 2)) by (unfold b; field; lra).
    cbn. apply vec_inj3. rewrite Ex, Ey. unfold w. clearbody a b. repeat split; field.
Qed.
(* Cylhole: neither contains the hole (radius r about z in the cylinder of radius Rad about x) nor is contained in it *)
Theorem C53_cylhole_mesh_is_not_the_hole : forall pm r Rad, 0 < r <= Rad ->
  (forall x y z, mset (cad_cylhole pm r Rad) (x, y, z) <-> x ^ 2 + y ^ 2 <= (2 * Rad) ^ 2 /\ Rabs z <= r / 2 /\ x ^ 2 + z ^ 2 <= (2 * r) ^ 2 /\ Rabs y <= Rad / 2) /\
  (mset (cad_cylhole pm r Rad) (2 * r, 0, 0) /\ ~ crossed_region r Rad (2 * r, 0, 0)) /\
  (crossed_region r Rad (0, 0, Rad) /\ ~ mset (cad_cylhole pm r Rad) (0, 0, Rad)).
Proof.
  intros pm r Rad H.
  assert (E : forall x y z, mset (cad_cylhole pm r Rad) (x, y, z) <-> x ^ 2 + y ^ 2 <= (2 * Rad) ^ 2 /\ Rabs z <= r / 2 /\ x ^ 2 + z ^ 2 <= (2 * r) ^ 2 /\ Rabs y <= Rad / 2).
  { intros. unfold cad_cylhole, cyl_set, extrude. cbn [mset]. rewrite !abs_half. split; intros K; repeat split; lra. }
  split; [exact E|]. split; split.
  - apply E. rewrite Rabs_R0. assert (r ^ 2 <= Rad ^ 2) by (apply pow_incr; lra). repeat split; nra.
  - unfold crossed_region. intros [K _]. nra.
  - unfold crossed_region. split; nra.
  - intros K. apply E in K. rewrite Rabs_pos_eq in K by lra. lra.
Qed.
(* Platehole *)
Theorem C53_platehole_mesh : forall pm t r theta, 0 < t -> 0 < r -> - PI / 2 < theta < PI / 2 ->
  (forall v, mset (cad_platehole pm t r theta) v -> drilled_region t r theta v) /\
  (theta = 0 -> draws (cad_platehole pm t r theta) (drilled_region t r theta)) /\
  (theta < 0 -> drilled_region t r theta (0, r, 0) /\ ~ mset (cad_platehole pm t r theta) (0, r, 0)) /\
  (t < r * tan theta -> drilled_region t r theta (r / cos theta, 0, 0) /\ ~ mset (cad_platehole pm t r theta) (r / cos theta, 0, 0)).
Proof.
  intros pm t r th Ht Hr Hth. assert (Hc : 0 < cos th) by (apply cos_gt_0; lra).
  assert (E : forall x y z, mset (cad_platehole pm t r th) (x, y, z) <-> box_set (2 * r + 2 * t * sin th) (2 * r + 2 * t * sin th) t (x, y, z) /\
     (x * cos th - z * sin th) ^ 2 + y ^ 2 <= r ^ 2 /\ - t <= x * sin th + z * cos th <= t).
  { intros. unfold cad_platehole, set_roty, yrot, cyl_set, extrude. cbn [mset]. rewrite cos_neg, sin_neg.
    replace (cos th * x + - sin th * z) with (x * cos th - z * sin th) by ring. replace (- - sin th * x + cos th * z) with (x * sin th + z * cos th) by ring.
    replace (- (2 * t) / 2) with (- t) by field. replace (2 * t / 2) with t by field. tauto. }
  assert (S : forall v, mset (cad_platehole pm t r th) v -> drilled_region t r th v).
  { intros [[x y] z] K. apply E in K. unfold drilled_region, box_set in *. rewrite abs_half. tauto. }
  split; [exact S|]. split; [|split].
  - intros -> [[x y] z]. split; [apply S|]. rewrite E. unfold drilled_region, box_set. rewrite cos_0, sin_0, abs_half. intros [Hz K].
    replace (x * 1 - z * 0) with x in * by ring. replace (2 * r + 2 * t * 0) with (2 * r) by ring. repeat split; nra.
  - intros N. split; [unfold drilled_region; rewrite Rabs_R0; split; nra|]. intros K. apply E in K. unfold box_set in K.
    assert (sin th < 0) by (apply sin_lt_0_var; lra). nra.
  - intros N. split; [unfold drilled_region; rewrite Rabs_R0; split; [lra|]; replace (r / cos th * cos th - 0 * sin th) with r by (field; lra); lra|].
    intros K. apply E in K. destruct K as (_ & _ & K). replace (r / cos th * sin th + 0 * cos th) with (r * tan th) in K by (unfold tan; field; lra). lra.
Qed.
(* OuterCone: drawn from azimuth 0 to 2 phih, not from - phih to phih; a hole (negative mass) is drawn as material *)
Theorem C53_outercone : forall mass H IR OR phih, 0 < H -> 0 < IR < OR ->
  exists m, cad_outercone mass H IR OR phih = Ok m /\ (pmass m = true <-> mass <> 0) /\ draws m (turned_region phih (outer_cone_region IR OR H phih)).
Proof.
  intros mass H IR OR ph HH HR. unfold cad_outercone. destruct (Rle_dec IR 0); [lra|]. eexists. split; [reflexivity|]. split.
  - cbn [pmass]. destruct (Req_EM_T mass 0); split; intros; try discriminate; try reflexivity; try assumption; contradiction.
  - intros v. cbn [mset]. apply (revolved _ (fun z x y => 0 <= z <= H /\ in_sector IR (OR - (OR - IR) * z / H) ph x y)). intros z x y. unfold in_sector.
    assert (F : forall r, triangle (OR, 0) (IR, H) (IR, 0) r z <-> 0 <= z <= H /\ IR <= r <= OR - (OR - IR) * z / H).
    { intros r. unfold triangle. cbn [fst snd]. rewrite hull3. split.
      - intros (s & t & u & Hs & Ht & Hu & E & P). unfold vadd, vscal in P. apply vec_inj3 in P. destruct P as (-> & -> & _).
        replace (s * 0 + (t * H + u * 0)) with (t * H) by ring. replace ((OR - IR) * (t * H) / H) with ((OR - IR) * t) by (field; lra). split; split; nra.
      - intros [Hz K]. assert (Q := div_in z H HH Hz). set (t := z / H) in *. assert (Ez : z = t * H) by (unfold t; field; lra).
        replace ((OR - IR) * z / H) with ((OR - IR) * t) in K by (unfold t; field; lra).
        exists ((r - IR) / (OR - IR)), t, (1 - t - (r - IR) / (OR - IR)).
        assert ((r - IR) / (OR - IR) <= 1 - t). { apply (Rmult_le_reg_r (OR - IR)); [lra|]. unfold Rdiv. rewrite Rmult_assoc, Rinv_l by lra. lra. }
        repeat split; try lra; [apply Rmult_le_pos; [lra|left; apply Rinv_0_lt_compat; lra]|]. unfold vadd, vscal. apply vec_inj3. rewrite Ez. repeat split; field; lra. }
    split.
    + intros [Hz (r & q & A & B & C)]. exists r, q. rewrite F. tauto.
    + intros (r & q & A & B & C). rewrite F in A. split; [tauto|]. exists r, q. tauto.
Qed.

(* hulls are convex *)
Definition comb (w : list R) (vs : list vec) : vec := vsum (map (fun '(a, v) => vscal a v) (combine w vs)).
Definition mix (s : R) (w1 w2 : list R) : list R := map (fun '(a, b) => s * a + (1 - s) * b) (combine w1 w2).
Lemma mix_comb s vs : forall w1 w2, length w1 = length vs -> length w2 = length vs ->
  comb (mix s w1 w2) vs = vadd (vscal s (comb w1 vs)) (vscal (1 - s) (comb w2 vs)) /\ length (mix s w1 w2) = length vs /\
  fold_right Rplus 0 (mix s w1 w2) = s * fold_right Rplus 0 w1 + (1 - s) * fold_right Rplus 0 w2.
Proof.
  induction vs as [|v vs IH]; intros w1 w2 L1 L2; destruct w1 as [|a w1], w2 as [|b w2]; try discriminate.
  - cbn. split; [|split]; [apply vec_inj3; repeat split; ring|reflexivity|ring].
  - destruct (IH w1 w2) as (E1 & E2 & E3); [now injection L1|now injection L2|]. unfold comb, mix in *. cbn [combine map length fold_right] in *.
    split; [|split; [now rewrite E2|rewrite E3; ring]]. unfold vsum in *. cbn [fold_right]. rewrite E1.
    destruct (fold_right vadd v0 (map (fun '(a0, v1) => vscal a0 v1) (combine w1 vs))) as [[? ?] ?].
    destruct (fold_right vadd v0 (map (fun '(a0, v1) => vscal a0 v1) (combine w2 vs))) as [[? ?] ?].
    destruct v as [[? ?] ?]. unfold vadd, vscal. apply vec_inj3; repeat split; ring.
Qed.
Lemma hull_convex vs p q s : 0 <= s <= 1 -> hull vs p -> hull vs q -> hull vs (vadd (vscal s p) (vscal (1 - s) q)).
Proof.
  intros Hs (w1 & L1 & F1 & S1 & ->) (w2 & L2 & F2 & S2 & ->). destruct (mix_comb s vs w1 w2 L1 L2) as (E1 & E2 & E3).
  exists (mix s w1 w2). split; [exact E2|]. split; [|split; [rewrite E3, S1, S2; ring|symmetry; exact E1]].
  apply List.Forall_forall. intros x Hx. unfold mix in Hx. apply in_map_iff in Hx. destruct Hx as ([a b] & <- & Hab). assert (G1 := in_combine_l _ _ _ _ Hab). assert (G2 := in_combine_r _ _ _ _ Hab).
  rewrite List.Forall_forall in F1, F2. specialize (F1 a G1). specialize (F2 b G2). cbn in F1, F2. nra.
Qed.
Lemma hull_vertex vs v : In v vs -> hull vs v.
Proof.
  assert (Z : forall vs, comb (map (fun _ => 0) vs) vs = v0 /\ fold_right Rplus 0 (map (fun _ : vec => 0) vs) = 0 /\ List.Forall (fun a => 0 <= a) (map (fun _ : vec => 0) vs)).
  { clear. induction vs as [|[[a b] c] vs (E1 & E2 & E3)]; [repeat split; apply List.Forall_nil|]. unfold comb, vsum in *. cbn [map combine fold_right]. rewrite E1, E2.
    split; [|split]; [unfold vadd, vscal, v0; apply vec_inj3; repeat split; ring|ring|apply List.Forall_cons; [lra|exact E3]]. }
  induction vs as [|u vs IH]; intros [].
  - subst u. destruct (Z vs) as (E1 & E2 & E3). exists (1 :: map (fun _ => 0) vs). split; [cbn; now rewrite map_length|]. split; [apply List.Forall_cons; [lra|exact E3]|].
    split; [cbn [fold_right]; rewrite E2; ring|]. unfold comb, vsum in E1. unfold vsum. cbn [combine map fold_right]. rewrite E1. destruct v as [[? ?] ?]. unfold vadd, vscal, v0. apply vec_inj3; repeat split; ring.
  - destruct (IH H) as (w & L & F & E & ->). exists (0 :: w). split; [cbn; now rewrite L|]. split; [apply List.Forall_cons; [lra|exact F]|]. split; [cbn [fold_right]; lra|].
    unfold vsum. cbn [combine map fold_right]. destruct (fold_right vadd v0 (map (fun '(a, v) => vscal a v) (combine w vs))) as [[? ?] ?]. destruct u as [[? ?] ?]. unfold vadd, vscal. apply vec_inj3; repeat split; ring.
Qed.
(* the regular polygon *)
Lemma vsum_app l l' : vsum (l ++ l') = vadd (vsum l) (vsum l').
Proof.
  unfold vsum. induction l as [|[[a b] c] l IH]; cbn [app fold_right].
  - destruct (fold_right vadd v0 l') as [[? ?] ?]. unfold vadd, v0. apply vec_inj3; repeat split; ring.
  - rewrite IH. destruct (fold_right vadd v0 l') as [[? ?] ?]. destruct (fold_right vadd v0 l) as [[? ?] ?]. unfold vadd. apply vec_inj3; repeat split; ring.
Qed.
Lemma vsum_turn n c D (N : Z) : vsum (map (fun k => vscal c (ngon_vertex N D k)) (seq 0 n)) =
  (c * (D / 2) * Re (nsum n (fun i => cexpi (2 * PI * INR i / IZR N))), c * (D / 2) * Im (nsum n (fun i => cexpi (2 * PI * INR i / IZR N))), 0).
Proof.
  induction n as [|n IH].
  - cbn. apply vec_inj3; repeat split; ring.
  - rewrite seq_S, map_app, vsum_app, IH. cbn [Nat.add map]. unfold vsum. cbn [fold_right nsum]. unfold ngon_vertex.
    set (s := nsum n (fun i => cexpi (2 * PI * INR i / IZR N))). set (w := 2 * PI * INR n / IZR N). unfold cexpi, Cplus, Re, Im, vadd, vscal, v0. cbn [fst snd]. apply vec_inj3; repeat split; ring.
Qed.
Lemma centre_in_polygon n D : (2 <= n)%nat -> hull (map (ngon_vertex (Z.of_nat n) D) (seq 0 n)) v0.
Proof.
  intros Hn. assert (HN : 0 < INR n) by (apply lt_0_INR; lia). exists (repeat (/ INR n) n). split; [now rewrite repeat_length, map_length, seq_length|].
  assert (P : 0 < / INR n) by (now apply Rinv_0_lt_compat). split; [|split].
  - apply List.Forall_forall. intros x Hx. apply repeat_spec in Hx. subst x. lra.
  - assert (E : forall k x, fold_right Rplus 0 (repeat x k) = INR k * x) by (induction k; intros x; cbn [repeat fold_right]; [cbn; ring|rewrite IHk, S_INR; ring]). rewrite E. field. lra.
  - assert (E : forall l c, map (fun '(a, v) => vscal a v) (combine (repeat c (length l)) l) = map (vscal c) l) by (induction l as [|x l IH]; intros c; [reflexivity|cbn; now rewrite IH]).
    transitivity (vsum (map (vscal (/ INR n)) (map (ngon_vertex (Z.of_nat n) D) (seq 0 n)))).
    + rewrite map_map, vsum_turn. assert (K := roots_N n (-1) 0 ltac:(lia)).
      replace (nsum n (fun i => cexpi (2 * PI * INR i / IZR (Z.of_nat n)))) with (RtoC 0); [unfold v0, Re, Im, RtoC; cbn [fst snd]; apply vec_inj3; repeat split; ring|].
      replace ((-1) mod Z.of_nat n =? 0)%Z with false in K.
      2:{ symmetry. apply Z.eqb_neq. intros E0. apply Z.mod_divide in E0; [|lia]. destruct E0 as (k & E0). assert (k = -1 \/ k < -1 \/ k > -1)%Z by lia. nia. }
      rewrite <- K. apply nsum_ext. intros i _. f_equal. rewrite <- INR_IZR_INZ. field. lra.
    + rewrite <- (E (map (ngon_vertex (Z.of_nat n) D) (seq 0 n)) (/ INR n)). now rewrite map_length, seq_length.
Qed.
Lemma vertex_outside (j : Z) n : (3 <= n)%nat -> (- Z.of_nat n < j < Z.of_nat n)%Z -> cos (IZR (2 * j - 1) * (PI / INR n)) <= cos (PI / INR n).
Proof.
  intros Hn Hj. assert (HN : 3 <= INR n) by (assert (G := le_INR 3 n Hn); cbn in G; lra). assert (Hp := PI_RGT_0). set (d := PI / INR n).
  assert (Hd : 0 < d) by (apply Rdiv_lt_0_compat; lra). assert (Hnd : INR n * d = PI) by (unfold d; field; lra).
  assert (A : forall k : Z, (1 <= k <= 2 * Z.of_nat n - 1)%Z -> cos (IZR k * d) <= cos d).
  { intros k Hk. assert (K1 : 1 <= IZR k) by (apply IZR_le; lia). assert (K2 : IZR k <= 2 * INR n - 1) by (rewrite INR_IZR_INZ; replace (2 * IZR (Z.of_nat n) - 1) with (IZR (2 * Z.of_nat n - 1)) by (rewrite minus_IZR, mult_IZR; ring); apply IZR_le; lia).
    assert (B1 : d <= IZR k * d) by nra. assert (B2 : IZR k * d <= 2 * PI - d) by nra. set (t := IZR k * d) in *. clearbody t. assert (d <= PI) by nra.
    destruct (Rle_lt_dec t PI) as [G|G].
    - apply cos_decr_1; lra.
    - replace (cos t) with (cos (2 * PI - t)) by (rewrite cos_minus, cos_2PI, sin_2PI; ring). apply cos_decr_1; lra. }
  destruct (Z_le_gt_dec 1 j) as [G|G].
  - apply A. lia.
  - replace (IZR (2 * j - 1) * d) with (- (IZR (- (2 * j - 1)) * d)) by (rewrite opp_IZR; ring). rewrite cos_neg. apply A. lia.
Qed.
Lemma polygon_sides n D x y : (3 <= n)%nat -> 0 < D ->
  polygon (Z.of_nat n) D x y <-> forall i, (i < n)%nat -> x * cos (PI / INR n + 2 * PI * INR i / INR n) + y * sin (PI / INR n + 2 * PI * INR i / INR n) <= D / 2 * cos (PI / INR n).
Proof.
  intros Hn HD. assert (HN : 3 <= INR n) by (apply (le_INR 3) in Hn; cbn in Hn; lra). assert (Hp := PI_RGT_0). set (d := PI / INR n).
  assert (Hd : 0 < d) by (apply Rdiv_lt_0_compat; lra). assert (Hnd : INR n * d = PI) by (unfold d; field; lra). assert (Hd2 : d < PI / 2) by nra.
  assert (V : forall k, ngon_vertex (Z.of_nat n) D k = (D / 2 * cos (2 * INR k * d), D / 2 * sin (2 * INR k * d), 0)).
  { intros k. unfold ngon_vertex. rewrite <- INR_IZR_INZ. replace (2 * PI * INR k / INR n) with (2 * INR k * d) by (unfold d; field; lra). reflexivity. }
  assert (M : forall i, d + 2 * PI * INR i / INR n = (2 * INR i + 1) * d) by (intros; unfold d; field; lra).
  unfold polygon. rewrite Nat2Z.id. split.
  - intros H i Hi. rewrite M. set (w := (2 * INR i + 1) * d).
    replace (x * cos w + y * sin w) with (cos w * x + sin w * y + 0 * 0) by ring. apply (hull_le _ _ _ _ _ _ _ _ H). intros v Hv. apply in_map_iff in Hv. destruct Hv as (k & <- & Hk). apply in_seq in Hk.
    rewrite V. replace (cos w * (D / 2 * cos (2 * INR k * d)) + sin w * (D / 2 * sin (2 * INR k * d)) + 0 * 0) with (D / 2 * cos (2 * INR k * d - w)) by (rewrite cos_minus; ring).
    apply Rmult_le_compat_l; [lra|]. assert (G := vertex_outside (Z.of_nat k - Z.of_nat i) n Hn ltac:(lia)).
    replace (2 * INR k * d - w) with (IZR (2 * (Z.of_nat k - Z.of_nat i) - 1) * (PI / INR n)); [exact G|]. rewrite minus_IZR, mult_IZR, minus_IZR, <- !INR_IZR_INZ. unfold w. fold d. ring.
  - intros H. destruct (arctan2_polar x y) as (E1 & E2 & E3). set (r := GlibShapes.rad x y) in *. assert (Hr : 0 <= r) by apply rad_nonneg.
    assert (exists p, 0 <= p < 2 * PI /\ x = r * cos p /\ y = r * sin p) as (p & Hp2 & Ex & Ey).
    { destruct (Rlt_le_dec (arctan2 y x) 0) as [G|G].
      - exists (arctan2 y x + 2 * PI). rewrite cos_plus, sin_plus, cos_2PI, sin_2PI. repeat split; lra.
      - exists (arctan2 y x). repeat split; lra. }
    clearbody r. clear E1 E2 E3.
    assert (exists i, (i < n)%nat /\ 2 * INR i * d <= p < 2 * (INR i + 1) * d) as (i & Hi & Hip).
    { set (t := p / (2 * d)). assert (Et : p = t * (2 * d)) by (unfold t; field; lra). assert (Ht : 0 <= t) by (apply Rmult_le_pos; [lra|left; apply Rinv_0_lt_compat; lra]).
      assert (Htn : t < INR n) by nra. destruct (archimed t) as [A1 A2]. assert (U : (0 < up t)%Z) by (apply lt_IZR; lra).
      exists (Z.to_nat (up t - 1)). assert (EI : INR (Z.to_nat (up t - 1)) = IZR (up t) - 1) by (rewrite INR_IZR_INZ, Z2Nat.id, minus_IZR by lia; reflexivity).
      rewrite EI. split; [|split; nra]. apply INR_lt. rewrite EI. lra. }
    assert (S2 : 0 < sin (2 * d)) by (apply sin_gt_0; nra).
    set (al := r * sin (2 * (INR i + 1) * d - p) / (D / 2 * sin (2 * d))). set (be := r * sin (p - 2 * INR i * d) / (D / 2 * sin (2 * d))).
    assert (P : 0 < / (D / 2 * sin (2 * d))) by (apply Rinv_0_lt_compat; nra).
    assert (Hal : 0 <= al) by (apply Rmult_le_pos; [apply Rmult_le_pos; [assumption|apply sin_ge_0; nra]|lra]).
    assert (Hbe : 0 <= be) by (apply Rmult_le_pos; [apply Rmult_le_pos; [assumption|apply sin_ge_0; nra]|lra]).
    assert (Hsum : al + be <= 1).
    { specialize (H i Hi). rewrite M, Ex, Ey in H. set (w := (2 * INR i + 1) * d) in *.
      replace (r * cos p * cos w + r * sin p * sin w) with (r * cos (p - w)) in H by (rewrite cos_minus; ring).
      assert (K : sin (2 * (INR i + 1) * d - p) + sin (p - 2 * INR i * d) = 2 * sin d * cos (p - w)).
      { replace (2 * (INR i + 1) * d - p) with (d - (p - w)) by (unfold w; ring). replace (p - 2 * INR i * d) with (d + (p - w)) by (unfold w; ring). rewrite sin_minus, sin_plus. ring. }
      assert (C : 0 < cos d) by (apply cos_gt_0; lra). assert (Sd : 0 < sin d) by (apply sin_gt_0; lra).
      replace (al + be) with (r * cos (p - w) / (D / 2 * cos d)).
      - apply (Rmult_le_reg_r (D / 2 * cos d)); [nra|]. unfold Rdiv at 1. rewrite Rmult_assoc, Rinv_l by nra. lra.
      - unfold al, be. transitivity (r * (sin (2 * (INR i + 1) * d - p) + sin (p - 2 * INR i * d)) / (D / 2 * sin (2 * d))); [rewrite K, sin_2a; field; repeat split; lra|]. field. split; lra. }
    set (vs := map (ngon_vertex (Z.of_nat n) D) (seq 0 n)).
    set (A := (D / 2 * cos (2 * INR i * d), D / 2 * sin (2 * INR i * d), 0)). set (B := (D / 2 * cos (2 * (INR i + 1) * d), D / 2 * sin (2 * (INR i + 1) * d), 0)).
    assert (HA : hull vs A). { apply hull_vertex. unfold A. rewrite <- V. apply in_map, in_seq. lia. }
    assert (HB : hull vs B).
    { apply hull_vertex. unfold B. destruct (Nat.eq_dec (S i) n) as [G|G].
      - replace (2 * (INR i + 1) * d) with (2 * PI) by (rewrite <- S_INR, G; lra). replace (cos (2 * PI)) with (cos (2 * INR 0 * d)) by (rewrite cos_2PI; cbn; rewrite Rmult_0_r, Rmult_0_l; apply cos_0).
        replace (sin (2 * PI)) with (sin (2 * INR 0 * d)) by (rewrite sin_2PI; cbn; rewrite Rmult_0_r, Rmult_0_l; apply sin_0). rewrite <- V. apply in_map, in_seq. lia.
      - rewrite <- S_INR, <- V. apply in_map, in_seq. lia. }
    assert (H0 : hull vs v0) by (apply centre_in_polygon; lia).
    assert (EP : (x, y, 0) = vadd (vscal al A) (vscal be B)).
    { unfold A, B, vadd, vscal. apply vec_inj3. rewrite Ex, Ey. unfold al, be. set (u := 2 * INR i * d). replace (2 * (INR i + 1) * d) with (u + 2 * d) by (unfold u; ring). fold u.
      split; [|split; [|ring]].
      - transitivity (r / sin (2 * d) * (sin (u + 2 * d - p) * cos u + sin (p - u) * cos (u + 2 * d))); [|field; split; lra].
        replace (sin (u + 2 * d - p) * cos u + sin (p - u) * cos (u + 2 * d)) with (sin (2 * d) * cos p); [field; lra|].
        rewrite !sin_minus, !cos_plus, !sin_plus. assert (G := sin2_cos2 u). unfold Rsqr in G. replace (sin (2 * d) * cos p) with ((sin u * sin u + cos u * cos u) * (sin (2 * d) * cos p)) by (rewrite G; ring). ring.
      - transitivity (r / sin (2 * d) * (sin (u + 2 * d - p) * sin u + sin (p - u) * sin (u + 2 * d))); [|field; split; lra].
        replace (sin (u + 2 * d - p) * sin u + sin (p - u) * sin (u + 2 * d)) with (sin (2 * d) * sin p); [field; lra|].
        rewrite !sin_minus, !cos_plus, !sin_plus. assert (G := sin2_cos2 u). unfold Rsqr in G. replace (sin (2 * d) * sin p) with ((sin u * sin u + cos u * cos u) * (sin (2 * d) * sin p)) by (rewrite G; ring). ring. }
    rewrite EP. destruct (Req_dec (al + be) 0) as [Z|Z].
    + assert (al = 0) by lra. assert (be = 0) by lra. rewrite H1, H2. replace (vadd (vscal 0 A) (vscal 0 B)) with v0; [exact H0|]. unfold A, B, vadd, vscal, v0. apply vec_inj3; repeat split; ring.
    + assert (Hab : 0 < al + be) by lra. assert (K := hull_convex vs _ _ (al / (al + be)) (div_in al (al + be) Hab ltac:(lra)) HA HB).
      assert (K2 := hull_convex vs _ _ (al + be) ltac:(lra) K H0). replace (vadd (vscal al A) (vscal be B)) with (vadd (vscal (al + be) (vadd (vscal (al / (al + be)) A) (vscal (1 - al / (al + be)) B))) (vscal (1 - (al + be)) v0)); [exact K2|].
      unfold A, B, v0, vadd, vscal. apply vec_inj3; repeat split; field; lra.
Qed.
(* NGon: the polygon drawn has sides of length a / 2, and phic is ignored *)
Theorem C53_NGon_has_half_the_side : forall lmax inner mass H a phic N, (0 <= lmax)%Z -> 0 < H -> 0 < a -> (3 <= N)%nat ->
  drawn_as (ngon_region H (a / 2) N) mass (NGon lmax inner mass H a phic (Z.of_nat N)).
Proof.
  intros L inner mass H a pc N HL HH Ha HN. destruct (C36_ngon_prism L mass H a pc N HL HH Ha HN) as (q & E & _).
  assert (HN' : 3 <= INR N) by (apply (le_INR 3) in HN; cbn in HN; lra). assert (Hp := PI_RGT_0). set (d := PI / INR N).
  assert (Hd : 0 < d) by (apply Rdiv_lt_0_compat; lra). assert (Hnd : INR N * d = PI) by (unfold d; field; lra). assert (Hd2 : d < PI / 2) by nra.
  assert (Sd : 0 < sin d) by (apply sin_gt_0; lra). assert (Cd : 0 < cos d) by (apply cos_gt_0; lra).
  set (Rd := a / sqrt (2 * (1 - cos (2 * PI / IZR (Z.of_nat N))))).
  assert (ER : Rd = a / (2 * sin d)).
  { unfold Rd. f_equal. f_equal. rewrite <- INR_IZR_INZ. replace (2 * PI / INR N) with (2 * d) by (unfold d; field; lra). rewrite cos_2a_sin.
    replace (2 * (1 - (1 - 2 * sin d * sin d))) with (Rsqr (2 * sin d)) by (unfold Rsqr; ring). apply sqrt_Rsqr. lra. }
  assert (HR : 0 < Rd) by (rewrite ER; apply Rdiv_lt_0_compat; lra).
  edestruct (rotate_alpha (extrude H (polygon (Z.of_nat N) Rd)) (posm mass) (2 * PI / IZR (Z.of_nat N) / 2)) as (m & Em & Pm & D); [intros v; reflexivity|].
  unfold NGon, cad_ngon_prism. cbv zeta. fold Rd. rewrite Em. cbn [bind]. apply drawn_prim; [exact Pm| |destruct inner; [rewrite E; now exists q|now exists (zeros L)]].
  intros v. rewrite (D v). replace (2 * PI / IZR (Z.of_nat N) / 2) with d by (rewrite <- INR_IZR_INZ; unfold d; field; lra).
  assert (A : a / 2 / (2 * tan d) = Rd / 2 * cos d) by (rewrite ER; unfold tan; field; lra).
  assert (K : forall x y z, extrude H (polygon (Z.of_nat N) Rd) (x, y, z) <-> ngon_region H (a / 2) N (zrot d (x, y, z))).
  { intros x y z. unfold extrude, ngon_region, zrot. rewrite polygon_sides, abs_half by assumption. fold d. rewrite A.
    assert (T : forall i, (cos d * x - sin d * y) * cos (2 * PI * INR i / INR N) + (sin d * x + cos d * y) * sin (2 * PI * INR i / INR N) = x * cos (2 * PI * INR i / INR N - d) + y * sin (2 * PI * INR i / INR N - d)) by (intros i; rewrite cos_minus, sin_minus; ring).
    assert (Sh : forall i, (i < N)%nat -> exists j, (j < N)%nat /\ cos (2 * PI * INR j / INR N - d) = cos (d + 2 * PI * INR i / INR N) /\ sin (2 * PI * INR j / INR N - d) = sin (d + 2 * PI * INR i / INR N)).
    { intros i Hi. destruct (Nat.eq_dec (S i) N) as [G|G].
      - exists 0%nat. split; [lia|]. replace (d + 2 * PI * INR i / INR N) with (2 * PI * INR 0 / INR N - d + 2 * PI); [rewrite cos_plus, sin_plus, cos_2PI, sin_2PI; split; ring|].
        assert (EI : INR i = INR N - 1) by (rewrite <- G, S_INR; ring). rewrite EI. cbn [INR]. unfold d. field. lra.
      - exists (S i). split; [lia|]. replace (2 * PI * INR (S i) / INR N - d) with (d + 2 * PI * INR i / INR N); [split; reflexivity|]. rewrite S_INR. unfold d. field. lra. }
    assert (Sh' : forall j, (j < N)%nat -> exists i, (i < N)%nat /\ cos (2 * PI * INR j / INR N - d) = cos (d + 2 * PI * INR i / INR N) /\ sin (2 * PI * INR j / INR N - d) = sin (d + 2 * PI * INR i / INR N)).
    { intros j Hj. destruct j as [|j].
      - exists (N - 1)%nat. split; [lia|]. replace (d + 2 * PI * INR (N - 1) / INR N) with (2 * PI * INR 0 / INR N - d + 2 * PI); [rewrite cos_plus, sin_plus, cos_2PI, sin_2PI; split; ring|].
        rewrite minus_INR by lia. cbn [INR]. unfold d. field. lra.
      - exists j. split; [lia|]. replace (2 * PI * INR (S j) / INR N - d) with (d + 2 * PI * INR j / INR N); [split; reflexivity|]. rewrite S_INR. unfold d. field. lra. }
    split; intros [K1 K2]; (split; [|exact K2]).
    - intros j Hj. rewrite T. destruct (Sh' j Hj) as (i & Hi & -> & ->). now apply K1.
    - intros i Hi. destruct (Sh i Hi) as (j & Hj & <- & <-). rewrite <- T. now apply K1. }
  unfold turned_region. split.
  - intros ([[x y] z] & K1 & ->). now apply K.
  - intros K1. exists (zrot (- d) v). rewrite zrot_inv. split; [|reflexivity]. destruct (zrot (- d) v) as [[x y] z] eqn:EZ. apply K. rewrite <- EZ, zrot_inv. exact K1.
Qed.

(* ---- concrete cases ---- *)
Example C53_case_Annulus : exists s m, Annulus 2 true (-1) 2 1 3 PI (PI / 4) = Ok s /\ s_mesh s = Some m /\ pmass m = false /\ mset m (-2, 0, 1) /\ ~ mset m (2, 0, 1).
Proof.
  assert (Hp := PI_RGT_0). destruct (C53_Annulus 2 (-1) 2 1 3 PI (PI / 4) ltac:(lia) ltac:(lra) ltac:(lra) ltac:(lra)) as (s & m & E & M & P & D).
  exists s, m. split; [exact E|]. split; [exact M|]. split; [destruct (pmass m); [destruct P as [P _]; specialize (P eq_refl); lra|reflexivity]|]. split.
  - apply D. exists (2, 0, 1). split.
    + unfold ring_sector. split; [exists 2, 0; rewrite cos_0, sin_0; repeat split; lra|rewrite Rabs_pos_eq; lra].
    + unfold zrot. rewrite cos_PI, sin_PI. apply vec_inj3; repeat split; ring.
  - intros K. apply D in K. destruct K as ([[x y] z] & (S & _) & EV). destruct S as (r & q & Hr & Hq & -> & ->). rewrite zrot_polar in EV. apply vec_inj3 in EV. destruct EV as (E1 & _).
    rewrite cos_plus, cos_PI, sin_PI in E1. assert (0 < cos q) by (apply cos_gt_0; lra). nra.
Qed.
Example C53_case_platehole : drilled_region 1 2 (PI / 4) (2 / cos (PI / 4), 0, 0) /\ ~ mset (cad_platehole true 1 2 (PI / 4)) (2 / cos (PI / 4), 0, 0).
Proof. assert (Hp := PI_RGT_0). destruct (C53_platehole_mesh true 1 2 (PI / 4) ltac:(lra) ltac:(lra) ltac:(lra)) as (_ & _ & _ & K). apply K. rewrite tan_PI4. lra. Qed.
Example C53_case_NGon : exists s m, NGon 2 true 1 2 4 5 4 = Ok s /\ s_mesh s = Some m /\ mset m (1, 1, 1) /\ ~ mset m (2, 2, 1).
Proof.
  destruct (C53_NGon_has_half_the_side 2 true 1 2 4 5 4 ltac:(lia) ltac:(lra) ltac:(lra) ltac:(lia)) as (s & m & E & M & _ & D). exists s, m. split; [exact E|]. split; [exact M|].
  assert (T : 4 / 2 / (2 * tan (PI / INR 4)) = 1) by (replace (PI / INR 4) with (PI / 4) by (f_equal; cbn; lra); rewrite tan_PI4; field).
  split.
  - apply D. unfold ngon_region. rewrite T. split; [|rewrite Rabs_pos_eq; lra]. intros i Hi. assert (i = 0 \/ i = 1 \/ i = 2 \/ i = 3)%nat as [-> | [-> | [-> | ->]]] by lia.
    + replace (2 * PI * INR 0 / INR 4) with 0 by (cbn; field). rewrite cos_0, sin_0. lra.
    + replace (2 * PI * INR 1 / INR 4) with (PI / 2) by (cbn; field). rewrite cos_PI2, sin_PI2. lra.
    + replace (2 * PI * INR 2 / INR 4) with PI by (cbn; field). rewrite cos_PI, sin_PI. lra.
    + replace (2 * PI * INR 3 / INR 4) with (3 * (PI / 2)) by (cbn; field). rewrite cos_3PI2, sin_3PI2. lra.
  - intros K. apply D in K. unfold ngon_region in K. rewrite T in K. destruct K as [K _]. specialize (K 0%nat ltac:(lia)). replace (2 * PI * INR 0 / INR 4) with 0 in K by (cbn; field). rewrite cos_0, sin_0 in K. lra.
Qed.
Print Assumptions C53_NGon_has_half_the_side.
Print Assumptions C53_Cone.
