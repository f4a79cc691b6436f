(* C40: more point-mass shapes of newt/glibShapes.py *)
From Verif Require Import GlibShapes PointSpec MomentSpec Qlm MathSpec Solid GlibShapesProofs Props_GlibShapes.
From Coq Require Import Reals List ZArith Bool Lia Lra.
Import ListNotations.
Open Scope R_scope.
Ltac fields := cbn [s_x0 s_x1 s_y0 s_y1 s_z0 s_z1].

(* ---- trapezoid ---- *)
Lemma angle_strip beta x y : 0 < beta < PI / 2 -> (Rabs (arctan2 y x) <= beta <-> 0 <= x /\ Rabs y <= x * tan beta).
Proof.
  intros Hb. assert (HPI := PI_RGT_0). assert (Hc : 0 < cos beta) by (apply cos_gt_0; lra). assert (Hs : 0 < sin beta) by (apply sin_gt_0; lra).
  destruct (arctan2_polar x y) as (E1 & E2 & E3). set (q := arctan2 y x) in *. assert (Hr := rad_nonneg x y). set (r := rad x y) in *.
  assert (T : forall u, u * tan beta = u * sin beta / cos beta) by (intros; unfold tan; field; lra).
  split.
  - intros H. apply Rabs_iff in H. assert (0 < cos q) by (apply cos_gt_0; lra). assert (Hx : 0 <= x) by (rewrite E1; nra). split; [exact Hx|].
    assert (S1 : 0 <= sin (beta - q)) by (apply sin_ge_0; lra). assert (S2 : 0 <= sin (beta + q)) by (apply sin_ge_0; lra). rewrite sin_minus in S1. rewrite sin_plus in S2.
    rewrite T. assert (B1 : y * cos beta <= x * sin beta). { rewrite E1, E2. nra. } assert (B2 : - (x * sin beta) <= y * cos beta). { rewrite E1, E2. nra. }
    apply Rabs_iff. split; apply Rmult_le_reg_r with (cos beta); try lra; [replace (- (x * sin beta / cos beta) * cos beta) with (- (x * sin beta)) by (field; lra); lra|replace (x * sin beta / cos beta * cos beta) with (x * sin beta) by (field; lra); lra].
  - intros [Hx H]. rewrite T in H. apply Rabs_iff in H. destruct (Req_dec r 0) as [K|K].
    { rewrite K, Rmult_0_l in E1, E2. unfold q. rewrite E1, E2, arctan2_0, Rabs_R0. lra. }
    assert (Hr' : 0 < r) by lra.
    assert (B1 : y * cos beta <= x * sin beta). { replace (x * sin beta) with (x * sin beta / cos beta * cos beta) by (field; lra). nra. }
    assert (B2 : - (x * sin beta) <= y * cos beta). { replace (x * sin beta) with (x * sin beta / cos beta * cos beta) by (field; lra). nra. }
    assert (S1 : 0 <= sin (beta - q)). { rewrite sin_minus. apply Rmult_le_reg_l with r; [lra|]. replace (r * (sin beta * cos q - cos beta * sin q)) with (r * cos q * sin beta - r * sin q * cos beta) by ring. rewrite <- E1, <- E2. lra. }
    assert (S2 : 0 <= sin (beta + q)). { rewrite sin_plus. apply Rmult_le_reg_l with r; [lra|]. replace (r * (sin beta * cos q + cos beta * sin q)) with (r * cos q * sin beta + r * sin q * cos beta) by ring. rewrite <- E1, <- E2. lra. }
    assert (C : 0 <= cos q) by (apply Rmult_le_reg_l with r; [lra|]; rewrite <- E1; lra).
    assert (Q : - (PI / 2) <= q <= PI / 2). { split; apply Rnot_lt_le; intros J.
      - assert (cos q < 0); [|lra]. rewrite <- cos_neg. apply cos_lt_0; lra.
      - assert (cos q < 0); [|lra]. apply cos_lt_0; lra. }
    apply Rabs_iff. split; apply Rnot_lt_le; intros J.
    + assert (sin (beta + q) < 0); [|lra]. apply sin_lt_0_var; lra.
    + assert (sin (beta - q) < 0); [|lra]. apply sin_lt_0_var; lra.
Qed.
Definition trapezoid_span (r1 r2 t beta : R) : span := mkspan (r1 * cos beta) (r2 * cos beta) (- (r2 * sin beta)) (r2 * sin beta) (- (t / 2)) (t / 2).
Theorem C40_trapezoid mass r1 r2 t beta nx nz : 0 <= r1 < r2 -> 0 < t -> 0 < beta < PI / 2 -> mass <> 0 -> (0 < nx)%nat -> (0 < nz)%nat ->
  let b := trapezoid_span r1 r2 t beta in
  (exists pts, g_trapezoid mass r1 r2 t beta nx nz = Ok pts /\ fills mass (trapezoid_region r1 r2 t beta) b nx nx nz pts) /\ encloses b (trapezoid_region r1 r2 t beta).
Proof.
  intros Hr Ht Hb Hm H1 H3 b. assert (N1 := INRpos _ H1). assert (N3 := INRpos _ H3). assert (HPI := PI_RGT_0).
  assert (Hc : 0 < cos beta) by (apply cos_gt_0; lra). assert (Hs : 0 < sin beta) by (apply sin_gt_0; lra). assert (Hcc : r1 * cos beta < r2 * cos beta) by nra. assert (Hd : 0 < r2 * sin beta) by nra. split.
  - unfold g_trapezoid. rewrite !no_cells_pos by assumption. assert (Hv : 0 < PI * (r2 ^ 2 - r1 ^ 2) * t) by (apply Rmult_lt_0_compat; [apply Rmult_lt_0_compat; [lra|nra]|lra]). rewrite is0_no by lra. cbv zeta.
    destruct (rle (PI / 2) beta) eqn:E; [apply rle_iff in E; lra|]. eexists. split; [apply renormalise_ok; ne|].
    apply grid_fills; try assumption; unfold b, trapezoid_span; fields; try lra.
    + intros i. unfold cell. field. lra.
    + intros i. unfold cell. field. lra.
    + intros i. unfold cell. field. lra.
    + intros [[vx vy] vz]. unfold in_span, trapezoid_region. fields. intros (A1 & A2 & A3). rewrite rle_iff, angle_strip, (Rabs_iff vz) by assumption. split; [intros; lra|]. intros (B1 & B2 & _). split; [nra|exact B2].
  - intros [[vx vy] vz]. unfold b, in_span, trapezoid_region, trapezoid_span. fields. intros (A1 & A2 & A3). split; [exact A1|]. split; [|now apply Rabs_iff].
    apply Rabs_iff. apply (Rle_trans _ _ _ A2). apply Rle_trans with (r2 * cos beta * tan beta); [|unfold tan; right; field; lra]. apply Rmult_le_compat_r; [|lra]. unfold tan. apply Rlt_le, Rdiv_lt_0_compat; lra.
Qed.
(* a half angle of a right angle or more: no error, only massless points at the origin *)
Theorem C40_trapezoid_wide mass r1 r2 t beta nx nz : 0 <= r1 < r2 -> 0 < t -> PI / 2 <= beta -> (0 < nz)%nat ->
  exists pts, g_trapezoid mass r1 r2 t beta nx nz = Ok pts /\ length pts = (nx * nx * nz)%nat /\ total_mass pts = 0 /\ (forall p, In p pts -> p = mkpt 0 (0, 0, 0)).
Proof.
  intros Hr Ht Hb H3. assert (HPI := PI_RGT_0). unfold g_trapezoid. rewrite !no_cells_pos by assumption.
  assert (Hv : 0 < PI * (r2 ^ 2 - r1 ^ 2) * t) by (apply Rmult_lt_0_compat; [apply Rmult_lt_0_compat; [lra|nra]|lra]). rewrite is0_no by lra. cbv zeta.
  rewrite (proj2 (rle_iff _ _)) by assumption. eexists. split; [reflexivity|]. split; [apply repeat_length|]. split.
  - induction (nx * nx * nz)%nat as [|n IH]; [reflexivity|]. cbn [repeat total_mass fold_right pm] in *. unfold total_mass in IH. rewrite IH. ring.
  - intros p Hp. now apply repeat_spec in Hp.
Qed.

(* ---- triangular prism and tetrahedron ---- *)
Lemma tri_test d y1 y2 x y : 0 < d -> (x * y1 <= y * d /\ y * d <= x * y2) <-> x * y1 / d <= y <= x * y2 / d.
Proof.
  intros Hd. assert (E1 : x * y1 = x * y1 / d * d) by (field; lra). assert (E2 : x * y2 = x * y2 / d * d) by (field; lra). set (a := x * y1 / d) in *. set (b := x * y2 / d) in *. clearbody a b. rewrite E1, E2. split; intros [A B]; split; nra.
Qed.
Definition base_of (y1 y2 : R) : R := Rmax 0 y2 - Rmin 0 y1.
Definition prism_span (d w t : R) : span := mkspan 0 d 0 w (- (t / 2)) (t / 2).
Lemma base_pos y1 y2 : y1 < y2 -> 0 < base_of y1 y2.
Proof. intros H. unfold base_of, Rmax, Rmin. destruct (Rle_dec 0 y2), (Rle_dec 0 y1); lra. Qed.
Lemma tri_prism_fills mass d y1 y2 t nx ny nz : 0 < d -> y1 < y2 -> 0 < t -> mass <> 0 -> (0 < nx)%nat -> (0 < ny)%nat -> (0 < nz)%nat ->
  fills_or_raises (g_tri_prism mass d y1 y2 t nx ny nz) mass (triangle_region d y1 y2 t) (prism_span d (base_of y1 y2) t) nx ny nz.
Proof.
  intros Hd Hy Ht Hm H1 H2 H3. assert (N1 := INRpos _ H1). assert (N2 := INRpos _ H2). assert (N3 := INRpos _ H3). assert (HB := base_pos _ _ Hy).
  unfold g_tri_prism. rewrite (proj2 (rlt_no y2 y1)) by lra. rewrite !no_cells_pos by assumption. cbn [orb]. cbv zeta. fold (base_of y1 y2).
  assert (Hv : 0 < t * (y2 - y1) * d / 2) by (apply Rdiv_lt_0_compat; [|lra]; repeat apply Rmult_lt_0_compat; lra). rewrite is0_no by lra.
  eapply renormalise_list_ok; [reflexivity|ne|]. apply grid_fills; try assumption; unfold prism_span; fields; try lra.
  + intros i. unfold cell. field. lra.
  + intros i. unfold cell. field. lra.
  + intros i. unfold cell. field. lra.
  + intros [[vx vy] vz]. unfold in_span, triangle_region. fields. intros (A1 & A2 & A3). rewrite andb_true_iff, !rle_iff, tri_test, Rabs_iff by assumption. lra.
Qed.
Lemma base_up y1 y2 : 0 <= y1 < y2 -> base_of y1 y2 = y2.
Proof. intros. unfold base_of. rewrite Rmax_right, Rmin_left by lra. ring. Qed.
Theorem C40_tri_prism mass d y1 y2 t nx ny nz : 0 < d -> 0 <= y1 < y2 -> 0 < t -> mass <> 0 -> (0 < nx)%nat -> (0 < ny)%nat -> (0 < nz)%nat ->
  fills_or_raises (g_tri_prism mass d y1 y2 t nx ny nz) mass (triangle_region d y1 y2 t) (prism_span d y2 t) nx ny nz /\ encloses (prism_span d y2 t) (triangle_region d y1 y2 t).
Proof.
  intros Hd Hy Ht Hm H1 H2 H3. split; [assert (K := tri_prism_fills mass d y1 y2 t nx ny nz); rewrite base_up in K by assumption; apply K; try assumption; lra|].
  intros [[x y] z]. unfold triangle_region, prism_span, in_span. fields. rewrite Rabs_iff. intros (A & B & C). split; [exact A|]. split; [|exact C].
  rewrite <- tri_test in B by assumption. split; nra.
Qed.
(* below the x axis nothing is ever filled, whatever part of the triangle lies there *)
Theorem C40_tri_prism_below mass d y1 y2 t nx ny nz pts p : 0 < d -> y1 < y2 -> 0 < t -> mass <> 0 -> (0 < nx)%nat -> (0 < ny)%nat -> (0 < nz)%nat ->
  g_tri_prism mass d y1 y2 t nx ny nz = Ok pts -> In p pts -> 0 < snd (fst (pp p)).
Proof.
  intros Hd Hy Ht Hm H1 H2 H3 E Hp. assert (K := tri_prism_fills mass d y1 y2 t nx ny nz Hd Hy Ht Hm H1 H2 H3). rewrite E in K. destruct K as [(pts' & [= <-] & _ & HF & _)|[K _]]; [|discriminate].
  assert (J : In (pp p) (map pp pts)) by now apply in_map. apply HF in J. destruct J as [J _]. destruct (pp p) as [[x y] z]. destruct J as (_ & J & _). unfold prism_span in J. cbn [s_y0 s_y1] in J.
  apply centre_range in J; [cbn; lra|assumption|now apply base_pos].
Qed.
Theorem C40_tri_prism_all_below mass d y1 y2 t nx ny nz : 0 < d -> y1 < y2 -> y2 <= 0 -> 0 < t -> mass <> 0 -> (0 < nx)%nat -> (0 < ny)%nat -> (0 < nz)%nat ->
  g_tri_prism mass d y1 y2 t nx ny nz = Err IndexError.
Proof.
  intros Hd Hy Hn Ht Hm H1 H2 H3. destruct (tri_prism_fills mass d y1 y2 t nx ny nz Hd Hy Ht Hm H1 H2 H3) as [(pts & E & N & HF & _)|[K _]]; [|exact K]. exfalso.
  destruct pts as [|p pts]; [contradiction|]. assert (J := proj1 (HF (pp p)) (or_introl eq_refl)). destruct J as [J1 J2]. destruct (pp p) as [[x y] z]. destruct J1 as (JX & JY & _). unfold prism_span in JX, JY. cbn [s_x0 s_x1 s_y0 s_y1] in JX, JY.
  apply centre_range in JX; [|assumption|assumption]. apply centre_range in JY; [|assumption|now apply base_pos]. destruct J2 as (_ & J2 & _). rewrite <- tri_test in J2 by assumption. nra.
Qed.
Definition tetra_span (X w Z : R) : span := mkspan 0 X 0 w 0 Z.
Lemma tetra_test X Z x z : 0 < X -> 0 < Z -> (z <= Z * (1 - x / X) <-> x / X + z / Z <= 1).
Proof.
  intros HX HZ. assert (E : z = z / Z * Z) by (field; lra). set (a := x / X). set (c := z / Z) in *. clearbody a c. subst z. split; intros; nra.
Qed.
Lemma tetra_fills mass x y1 y2 z nx ny nz : 0 < x -> y1 < y2 -> 0 < z -> mass <> 0 -> (0 < nx)%nat -> (0 < ny)%nat -> (0 < nz)%nat ->
  exists pts, g_tetrahedron mass x y1 y2 z nx ny nz = Ok pts /\ fills mass (tetra_region x y1 y2 z) (tetra_span x (base_of y1 y2) z) nx ny nz pts.
Proof.
  intros Hd Hy Ht Hm H1 H2 H3. assert (N1 := INRpos _ H1). assert (N2 := INRpos _ H2). assert (N3 := INRpos _ H3). assert (HB := base_pos _ _ Hy).
  unfold g_tetrahedron. rewrite (proj2 (rlt_no y2 y1)) by lra. rewrite !no_cells_pos by assumption. cbn [orb]. cbv zeta. fold (base_of y1 y2).
  assert (Hv : 0 < z * (y2 - y1) * x / 6) by (apply Rdiv_lt_0_compat; [|lra]; repeat apply Rmult_lt_0_compat; lra). rewrite is0_no by lra.
  eexists. split; [apply renormalise_ok; ne|]. apply grid_fills; try assumption; unfold tetra_span; fields; try lra.
  + intros i. unfold cell. field. lra.
  + intros i. unfold cell. field. lra.
  + intros i. unfold cell. field. lra.
  + intros [[vx vy] vz]. unfold in_span, tetra_region. fields. intros (A1 & A2 & A3). rewrite !andb_true_iff, !rle_iff, tri_test, tetra_test by assumption. lra.
Qed.
Theorem C40_tetrahedron mass x y1 y2 z nx ny nz : 0 < x -> 0 <= y1 < y2 -> 0 < z -> mass <> 0 -> (0 < nx)%nat -> (0 < ny)%nat -> (0 < nz)%nat ->
  (exists pts, g_tetrahedron mass x y1 y2 z nx ny nz = Ok pts /\ fills mass (tetra_region x y1 y2 z) (tetra_span x y2 z) nx ny nz pts) /\ encloses (tetra_span x y2 z) (tetra_region x y1 y2 z).
Proof.
  intros Hd Hy Ht Hm H1 H2 H3. split; [assert (K := tetra_fills mass x y1 y2 z nx ny nz); rewrite base_up in K by assumption; apply K; try assumption; lra|].
  intros [[vx vy] vz]. unfold tetra_region, tetra_span, in_span. fields. intros (A & B & C & D).
  rewrite <- tri_test in C by assumption. assert (Ex : vx = vx / x * x) by (field; lra). assert (Ez : vz = vz / z * z) by (field; lra). set (a := vx / x) in *. set (c := vz / z) in *. clearbody a c.
  assert (0 <= a) by nra. assert (0 <= c) by nra. assert (vx <= x) by nra. split; [nra|]. split; nra.
Qed.
Theorem C40_tetrahedron_below mass x y1 y2 z nx ny nz pts p : 0 < x -> y1 < y2 -> 0 < z -> mass <> 0 -> (0 < nx)%nat -> (0 < ny)%nat -> (0 < nz)%nat ->
  g_tetrahedron mass x y1 y2 z nx ny nz = Ok pts -> In p pts -> 0 < snd (fst (pp p)).
Proof.
  intros Hd Hy Ht Hm H1 H2 H3 E Hp. destruct (tetra_fills mass x y1 y2 z nx ny nz Hd Hy Ht Hm H1 H2 H3) as (pts' & E' & HF & _). rewrite E in E'. injection E' as <-.
  assert (J : In (pp p) (map pp pts)) by now apply in_map. apply HF in J. destruct J as [J _]. destruct (pp p) as [[vx vy] vz]. destruct J as (_ & J & _). unfold tetra_span in J. cbn [s_y0 s_y1] in J.
  apply centre_range in J; [cbn; lra|assumption|now apply base_pos].
Qed.
Theorem C40_tetrahedron_all_below mass x y1 y2 z nx ny nz : 0 < x -> y1 < y2 -> y2 <= 0 -> 0 < z -> mass <> 0 -> (0 < nx)%nat -> (0 < ny)%nat -> (0 < nz)%nat ->
  g_tetrahedron mass x y1 y2 z nx ny nz = Ok nil.
Proof.
  intros Hd Hy Hn Ht Hm H1 H2 H3. destruct (tetra_fills mass x y1 y2 z nx ny nz Hd Hy Ht Hm H1 H2 H3) as (pts & E & HF & _). rewrite E. f_equal.
  destruct pts as [|p pts]; [reflexivity|]. exfalso. assert (J := proj1 (HF (pp p)) (or_introl eq_refl)). destruct J as [J1 J2]. destruct (pp p) as [[vx vy] vz]. destruct J1 as (JX & JY & _). unfold tetra_span in JX, JY. cbn [s_x0 s_x1 s_y0 s_y1] in JX, JY.
  apply centre_range in JX; [|assumption|assumption]. apply centre_range in JY; [|assumption|now apply base_pos]. destruct J2 as (_ & _ & J2 & _). rewrite <- tri_test in J2 by assumption. nra.
Qed.
(* the vertices in the wrong order: an empty list *)
Theorem C40_tri_order mass d y1 y2 t nx ny nz : y2 < y1 -> g_tri_prism mass d y1 y2 t nx ny nz = Ok nil /\ g_tetrahedron mass d y1 y2 t nx ny nz = Ok nil.
Proof. intros H. unfold g_tri_prism, g_tetrahedron. rewrite (proj2 (rlt_iff _ _)) by assumption. now split. Qed.

(* ---- pyramid ---- *)
Definition pyramid_span (a b h : R) : span := mkspan (- a) a (- b) b 0 h.
Lemma pyramid_test x y z vx vy vz : 0 < x -> 0 < y -> 0 < z -> 0 <= vz <= z ->
  ((vx * y / 2 <= vy * x / 2 /\ - (vy * x / 2) <= vx * y / 2 /\ vz <= z * (1 - 2 * vy / y)) \/ (vy * x / 2 <= vx * y / 2 /\ vx * y / 2 <= - (vy * x / 2) /\ vz <= z * (1 + 2 * vy / y))
   \/ (vx * y / 2 <= vy * x / 2 /\ vx * y / 2 <= - (vy * x / 2) /\ vz <= z * (1 + 2 * vx / x)) \/ (vy * x / 2 <= vx * y / 2 /\ - (vy * x / 2) <= vx * y / 2 /\ vz <= z * (1 - 2 * vx / x)))
  <-> Rabs vx <= x / 2 * (1 - vz / z) /\ Rabs vy <= y / 2 * (1 - vz / z).
Proof.
  intros Hx Hy Hz Hv. rewrite !Rabs_iff. assert (Ez : vz = vz / z * z) by (field; lra). assert (Ex : vx = vx / x * x) by (field; lra). assert (Ey : vy = vy / y * y) by (field; lra).
  replace (2 * vy / y) with (2 * (vy / y)) by (field; lra). replace (2 * vx / x) with (2 * (vx / x)) by (field; lra).
  set (a := vx / x) in *. set (b := vy / y) in *. set (c := vz / z) in *. clearbody a b c. subst vx vy vz.
  assert (HA : forall u, a * x * y / 2 <= u * (x * y) / 2 <-> a <= u) by (intros u; assert (0 < x * y) by nra; split; intros; nra).
  assert (HX : forall u v, u * (x * y) / 2 <= v * (x * y) / 2 <-> u <= v) by (intros u v; assert (0 < x * y) by nra; split; intros; nra).
  replace (a * x * y / 2) with (a * (x * y) / 2) by field. replace (b * y * x / 2) with (b * (x * y) / 2) by field. replace (- (b * (x * y) / 2)) with (- b * (x * y) / 2) by field. rewrite !HX.
  assert (HZ : forall u, c * z <= z * u <-> c <= u) by (intros u; split; intros; nra). rewrite !HZ.
  assert (P1 : (- (x / 2 * (1 - c)) <= a * x <= x / 2 * (1 - c)) <-> (- (1 - c) <= 2 * a <= 1 - c)) by (split; intros [? ?]; split; nra). rewrite P1.
  assert (P2 : (- (y / 2 * (1 - c)) <= b * y <= y / 2 * (1 - c)) <-> (- (1 - c) <= 2 * b <= 1 - c)) by (split; intros [? ?]; split; nra). rewrite P2.
  split; [intros [K|[K|[K|K]]]; lra|]. intros [K1 K2]. destruct (Rle_dec a b), (Rle_dec (- b) a); [left|right; right; left|right; right; right|right; left]; lra.
Qed.
(* what pyramid fills: a base with sides x and y, not the documented half sides x and y *)
Theorem C40_pyramid mass x y z nx ny nz : 0 < x -> 0 < y -> 0 < z -> mass <> 0 -> (0 < nx)%nat -> (0 < ny)%nat -> (0 < nz)%nat ->
  let b := pyramid_span (x / 2) (y / 2) z in
  (exists pts, g_pyramid mass x y z nx ny nz = Ok pts /\ fills mass (pyramid_region (x / 2) (y / 2) z) b nx ny nz pts) /\ encloses b (pyramid_region (x / 2) (y / 2) z).
Proof.
  intros Hx Hy Hz Hm H1 H2 H3 b. assert (N1 := INRpos _ H1). assert (N2 := INRpos _ H2). assert (N3 := INRpos _ H3). split.
  - unfold g_pyramid. rewrite !no_cells_pos by assumption. cbn [orb]. assert (Hv : 0 < z * y * x / 3) by (apply Rdiv_lt_0_compat; [|lra]; repeat apply Rmult_lt_0_compat; lra). rewrite is0_no by lra. cbv zeta.
    eexists. split; [apply renormalise_ok; ne|]. apply grid_fills; try assumption; unfold b, pyramid_span; fields; try lra.
    + intros i. unfold cell. field. lra.
    + intros i. unfold cell. field. lra.
    + intros i. unfold cell. field. lra.
    + intros [[vx vy] vz]. unfold in_span, pyramid_region. fields. intros (A1 & A2 & A3). rewrite !orb_true_iff, !andb_true_iff, !rle_iff, <- pyramid_test by assumption. tauto.
  - intros [[vx vy] vz]. unfold b, in_span, pyramid_region, pyramid_span. fields. rewrite !Rabs_iff. intros (A1 & A2 & A3).
    assert (0 <= vz / z) by (apply Rmult_le_pos; [lra|left; apply Rinv_0_lt_compat; lra]). split; [nra|]. split; [nra|lra].
Qed.
(* every point of the documented pyramid (half sides x and y) beyond half its base is missed *)
Theorem C40_pyramid_half_size mass x y z nx ny nz pts p : 0 < x -> 0 < y -> 0 < z -> mass <> 0 -> (0 < nx)%nat -> (0 < ny)%nat -> (0 < nz)%nat ->
  g_pyramid mass x y z nx ny nz = Ok pts -> In p pts -> pyramid_region (x / 2) (y / 2) z (pp p) /\ pyramid_region x y z (pp p).
Proof.
  intros Hx Hy Hz Hm H1 H2 H3 E Hp. destruct (C40_pyramid mass x y z nx ny nz) as ((pts' & E' & HF & _) & _); try assumption. rewrite E in E'. injection E' as <-.
  assert (J : In (pp p) (map pp pts)) by now apply in_map. apply HF in J. destruct J as [_ J]. split; [exact J|]. destruct (pp p) as [[vx vy] vz]. destruct J as (J1 & J2 & J3).
  assert (K : 0 <= 1 - vz / z). { apply Rmult_le_reg_r with z; [lra|]. replace ((1 - vz / z) * z) with (z - vz) by (field; lra). lra. }
  split; [exact J1|]. split; nra.
Qed.

(* ---- regular polygons ---- *)
Lemma cos_least N q (j : Z) : (3 <= N)%nat -> Rabs q <= PI / INR N -> cos (q + 2 * (PI / INR N) * IZR j) <= cos q.
Proof.
  intros HN Hq. assert (HPI := PI_RGT_0). assert (N1 : 0 < INR N) by (apply INRpos; lia). set (f := PI / INR N) in *. assert (Ef : f * INR N = PI) by (unfold f; field; lra).
  assert (Hf : 0 < f) by (apply Rdiv_lt_0_compat; lra). apply Rabs_iff in Hq.
  assert (Hn : (0 < Z.of_nat N)%Z) by lia. assert (Hm := Z.mod_pos_bound j _ Hn). assert (Hd := Z.div_mod j (Z.of_nat N) ltac:(lia)). set (k := (j mod Z.of_nat N)%Z) in *. set (d := (j / Z.of_nat N)%Z) in *. clearbody k d.
  replace (q + 2 * f * IZR j) with (q + 2 * f * IZR k + 2 * IZR d * PI). 2:{ rewrite Hd, plus_IZR, mult_IZR, <- INR_IZR_INZ, <- Ef. ring. }
  rewrite cos_per. destruct (Z.eq_dec k 0) as [->|K]; [right; f_equal; cbn; ring|].
  assert (K1 : 1 <= IZR k) by (apply IZR_le; lia). assert (K2 : IZR k <= INR N - 1). { rewrite INR_IZR_INZ, <- minus_IZR. apply IZR_le. lia. }
  assert (E : cos q - cos (q + 2 * f * IZR k) = 2 * sin (q + f * IZR k) * sin (f * IZR k)).
  { set (B := f * IZR k). replace (q + 2 * f * IZR k) with ((q + B) + B) by (unfold B; ring). set (A := q + B). replace q with (A - B) by (unfold A; ring). clearbody A B. rewrite cos_minus, cos_plus. ring. }
  assert (S1 : 0 <= sin (q + f * IZR k)) by (apply sin_ge_0; nra). assert (S2 : 0 <= sin (f * IZR k)) by (apply sin_ge_0; nra). nra.
Qed.
Lemma ngon_test N b x y : (3 <= N)%nat ->
  let phih := PI / INR N in let q0 := pymod (arctan2 y x) (2 * phih) in let q := if rlt phih q0 then q0 - 2 * phih else q0 in
  Rabs q <= phih /\ (rad x y * cos q <= b <-> forall i, (i < N)%nat -> x * cos (2 * PI * INR i / INR N) + y * sin (2 * PI * INR i / INR N) <= b).
Proof.
  intros HN phih q0 q. assert (HPI := PI_RGT_0). assert (N1 : 0 < INR N) by (apply INRpos; lia). assert (Hf : 0 < phih) by (apply Rdiv_lt_0_compat; lra).
  assert (Hq0 := pymod_range (arctan2 y x) (2 * phih) ltac:(lra)). fold q0 in Hq0.
  assert (Hq : Rabs q <= phih). { unfold q. destruct (rlt phih q0) eqn:E; [apply rlt_iff in E|apply rlt_no in E]; apply Rabs_iff; lra. }
  assert (Hk : exists k : Z, arctan2 y x = q + 2 * phih * IZR k).
  { destruct (pymod_eq (arctan2 y x) (2 * phih)) as [k Ek]. fold q0 in Ek. unfold q. destruct (rlt phih q0); [exists (k + 1)%Z; rewrite plus_IZR; lra|exists k; lra]. }
  clearbody q. clear q0 Hq0. split; [exact Hq|]. destruct Hk as [k Ek]. destruct (arctan2_polar x y) as (E1 & E2 & _). assert (Hr := rad_nonneg x y). set (r := rad x y) in *. set (t := arctan2 y x) in *. clearbody r t.
  assert (G : forall i : nat, x * cos (2 * PI * INR i / INR N) + y * sin (2 * PI * INR i / INR N) = r * cos (q + 2 * phih * IZR (k - Z.of_nat i))).
  { intros i. rewrite E1, E2. replace (q + 2 * phih * IZR (k - Z.of_nat i)) with (t - 2 * PI * INR i / INR N). { rewrite cos_minus. ring. }
    rewrite Ek, minus_IZR, <- INR_IZR_INZ. unfold phih. field. lra. }
  split.
  - intros H i Hi. rewrite G. assert (K := cos_least N q (k - Z.of_nat i) HN Hq). fold phih in K. nra.
  - intros H. assert (Hm := Z.mod_pos_bound k (Z.of_nat N) ltac:(lia)). assert (Hd := Z.div_mod k (Z.of_nat N) ltac:(lia)).
    specialize (H (Z.to_nat (k mod Z.of_nat N)) ltac:(lia)). rewrite G, Z2Nat.id in H by lia. set (m := (k mod Z.of_nat N)%Z) in *. set (d := (k / Z.of_nat N)%Z) in *. clearbody m d. rewrite Hd in H.
    replace (q + 2 * phih * IZR (Z.of_nat N * d + m - m)) with (q + 2 * IZR d * PI) in H; [now rewrite cos_per in H|]. replace (Z.of_nat N * d + m - m)%Z with (Z.of_nat N * d)%Z by ring. rewrite mult_IZR, <- INR_IZR_INZ. unfold phih. field. lra.
Qed.
(* the circle through the corners *)
Definition ngon_span (H a : R) (N : nat) : span := let d := a / (2 * sin (PI / INR N)) in mkspan (- d) d (- d) d (- (H / 2)) (H / 2).
Theorem C40_ngon_prism mass H a N nx nz : 0 < H -> 0 < a -> (3 <= N)%nat -> mass <> 0 -> (0 < nx)%nat -> (0 < nz)%nat ->
  (exists pts, g_ngon_prism mass H a N nx nz = Ok pts /\ fills mass (ngon_region H a N) (ngon_span H a N) nx nx nz pts) /\ encloses (ngon_span H a N) (ngon_region H a N).
Proof.
  intros HH Ha HN Hm H1 H3. assert (N1 := INRpos _ H1). assert (N3 := INRpos _ H3). assert (HPI := PI_RGT_0). assert (N0 : 0 < INR N) by (apply INRpos; lia).
  assert (HN3 : 3 <= INR N). { change 3 with (IZR (Z.of_nat 3)). rewrite <- INR_IZR_INZ. now apply le_INR. }
  set (f := PI / INR N). assert (Ef : f * INR N = PI) by (unfold f; field; lra). assert (Hf : 0 < f < PI / 2). { split; [apply Rdiv_lt_0_compat; lra|nra]. }
  assert (Hs : 0 < sin f) by (apply sin_gt_0; lra). assert (Hc : 0 < cos f) by (apply cos_gt_0; lra). assert (Ht : 0 < tan f) by (unfold tan; apply Rdiv_lt_0_compat; lra).
  assert (Hd : 0 < a / (2 * sin f)) by (apply Rdiv_lt_0_compat; lra). assert (Hb : 0 < a / (2 * tan f)) by (apply Rdiv_lt_0_compat; lra). split.
  - unfold g_ngon_prism. rewrite !no_cells_pos by (assumption || lia). cbn [orb]. rewrite (proj2 (Nat.leb_gt N 2)) by lia. cbv zeta. fold f.
    match goal with |- context [match ?l with nil => _ | _ :: _ => _ end] => set (pts := l) end.
    assert (EQ : (match pts with nil => Ok nil | _ :: _ => if is0 (INR N * H * a * (a / (2 * tan f)) / 2) then Err NotFinite else renormalise mass (mass / (INR N * H * a * (a / (2 * tan f)) / 2) * (2 * (a / (2 * sin f)) / INR nx * (2 * (a / (2 * sin f)) / INR nx) * (H / INR nz) / 2)) pts end) = Ok (even_mass mass pts)).
    { destruct pts as [|p l]; [reflexivity|]. rewrite is0_no by ne. apply renormalise_ok. ne. }
    eexists. split; [exact EQ|]. unfold pts. apply grid_fills; try assumption; unfold ngon_span; fold f; fields; try lra.
    + intros i. unfold cell. field. lra.
    + intros i. unfold cell. field. lra.
    + intros i. unfold cell. field. lra.
    + intros [[vx vy] vz]. unfold in_span, ngon_region. fields. intros (A1 & A2 & A3). rewrite rle_iff. destruct (ngon_test N (a / (2 * tan f)) vx vy HN) as [_ K]. cbv zeta in K. fold f in K. rewrite K, Rabs_iff. fold f. tauto.
  - intros [[vx vy] vz]. unfold in_span, ngon_region, ngon_span. fold f. cbv zeta. fields. intros [A B]. rewrite Rabs_iff in B.
    destruct (ngon_test N (a / (2 * tan f)) vx vy HN) as [Q K]. cbv zeta in K, Q. fold f in K, Q. rewrite <- K in A. clear K. set (q := if rlt f _ then _ else _) in *. clearbody q. apply Rabs_iff in Q.
    assert (C : cos f <= cos q). { destruct (Rle_dec 0 q); [apply cos_decr_1; lra|]. rewrite <- (cos_neg q). apply cos_decr_1; lra. }
    assert (Hr := rad_nonneg vx vy). assert (Er := rad_sq vx vy). set (r := rad vx vy) in *. clearbody r.
    assert (L : r <= a / (2 * sin f)). { apply Rmult_le_reg_r with (cos f); [exact Hc|]. replace (a / (2 * sin f) * cos f) with (a / (2 * tan f)) by (unfold tan; field; lra). nra. }
    assert (Rabs vx <= r) by (apply Rsqr_incr_0_var; [rewrite <- Rsqr_abs; unfold Rsqr; nra|lra]).
    assert (Rabs vy <= r) by (apply Rsqr_incr_0_var; [rewrite <- Rsqr_abs; unfold Rsqr; nra|lra]). rewrite Rabs_iff in H0, H2. lra.
Qed.

(* ---- drilled shapes ---- *)
Definition crossed_span (r Rad : R) : span := mkspan (- r) r (- r) r (- Rad) Rad.
(* the hole along z of radius r through a cylinder about the x axis (the docstring says y) *)
Theorem C40_cylhole mass r Rad nx nz : 0 < r -> 0 < Rad -> mass <> 0 -> (0 < nx)%nat -> (0 < nz)%nat ->
  (exists pts, g_cylhole mass r Rad nx nz = Ok pts /\ fills mass (crossed_region r Rad) (crossed_span r Rad) nx nx nz pts) /\ encloses (crossed_span r Rad) (crossed_region r Rad).
Proof.
  intros Hr HR Hm H1 H3. assert (N1 := INRpos _ H1). assert (N3 := INRpos _ H3). split.
  - unfold g_cylhole. rewrite !no_cells_pos by assumption. cbn [orb]. cbv zeta. assert (Hv : 0 < 16 * Rad * r ^ 2 / 3) by (apply Rdiv_lt_0_compat; [|lra]; apply Rmult_lt_0_compat; nra). rewrite is0_no by lra.
    eexists. split; [apply renormalise_ok; ne|]. apply grid_fills; try assumption; unfold crossed_span; fields; try lra.
    + intros i. unfold cell. field. lra.
    + intros i. unfold cell. field. lra.
    + intros i. unfold cell. field. lra.
    + intros [[vx vy] vz] _. unfold crossed_region. rewrite andb_true_iff, !rle_iff, <- !rad_sq.
      assert (K : forall u v, 0 <= u -> 0 < v -> (u <= v <-> u ^ 2 <= v ^ 2)). { intros u v Hu Hv'. split; [intros; apply pow_incr; lra|intros K; apply Rsqr_incr_0_var; [unfold Rsqr; nra|lra]]. }
      rewrite (K (rad vx vy) r), (K (rad vy vz) Rad) by (try apply rad_nonneg; assumption). tauto.
  - intros [[vx vy] vz]. unfold crossed_region, crossed_span, in_span. fields. intros [A B].
    assert (Rabs vx <= r) by (apply Rsqr_incr_0_var; [rewrite <- Rsqr_abs; unfold Rsqr; nra|lra]).
    assert (Rabs vy <= r) by (apply Rsqr_incr_0_var; [rewrite <- Rsqr_abs; unfold Rsqr; nra|lra]).
    assert (Rabs vz <= Rad) by (apply Rsqr_incr_0_var; [rewrite <- Rsqr_abs; unfold Rsqr; nra|lra]). rewrite Rabs_iff in H, H0, H2. lra.
Qed.
Definition plate_span (w r t : R) : span := mkspan (- w) w (- r) r (- (t / 2)) (t / 2).
Lemma tan_pos th : 0 <= th < PI / 2 -> 0 <= tan th.
Proof. intros H. assert (HPI := PI_RGT_0). unfold tan. apply Rmult_le_pos; [apply sin_ge_0; lra|]. left. apply Rinv_0_lt_compat, cos_gt_0; lra. Qed.
Lemma plate_fills mass t r theta nx ny nz : 0 < t -> 0 < r -> - (PI / 2) < theta < PI / 2 -> 0 < r + t * tan theta / 2 -> mass <> 0 -> (0 < nx)%nat -> (0 < ny)%nat -> (0 < nz)%nat ->
  exists pts, g_platehole mass t r theta nx ny nz = Ok pts /\ fills mass (slanted_region t r theta) (plate_span (2 * r + t * tan theta) r t) nx ny nz pts.
Proof.
  intros Ht Hr Hth Hw Hm H1 H2 H3. assert (N1 := INRpos _ H1). assert (N2 := INRpos _ H2). assert (N3 := INRpos _ H3). assert (HPI := PI_RGT_0). assert (Hc : 0 < cos theta) by (apply cos_gt_0; lra).
  unfold g_platehole. rewrite !no_cells_pos by assumption. cbn [orb]. rewrite is0_no by lra. cbv zeta. set (s := tan theta) in *.
  assert (Hsq : 0 < sqrt (1 + s ^ 2)) by apply sqrt_1_t. assert (Hr2 : 0 < r ^ 2) by nra.
  match goal with |- context [match ?l with nil => _ | _ :: _ => _ end] => set (pts := l) end.
  assert (EQ : (match pts with nil => Ok nil | _ :: _ => if is0 (PI * sqrt (1 + s ^ 2) * t * r ^ 2) then Err NotFinite else renormalise mass (mass / (PI * sqrt (1 + s ^ 2) * t * r ^ 2) * (2 * (2 * (r + t * s / 2)) / INR nx) * (2 * r / INR ny) * (t / INR nz)) pts end) = Ok (even_mass mass pts)).
  { destruct pts as [|p l]; [reflexivity|]. assert (HK : PI * sqrt (1 + s ^ 2) * t * r ^ 2 <> 0) by (apply mul_ne; [apply mul_ne; [apply mul_ne; lra|lra]|lra]). rewrite is0_no by exact HK. apply renormalise_ok.
    apply mul_ne; [apply mul_ne; [apply mul_ne; [apply div_ne; assumption|ne]|ne]|ne]. }
  eexists. split; [exact EQ|]. unfold pts. apply grid_fills; try assumption; unfold plate_span; fold s; fields; try lra.
  + intros i. unfold cell. field. lra.
  + intros i. unfold cell. field. lra.
  + intros i. unfold cell. field. lra.
  + intros [[vx vy] vz]. unfold slanted_region, in_span. fields. fold s. intros (A1 & A2 & A3). rewrite rle_iff, Rabs_iff. lra.
Qed.
Theorem C40_platehole mass t r theta nx ny nz : 0 < t -> 0 < r -> 0 <= theta < PI / 2 -> mass <> 0 -> (0 < nx)%nat -> (0 < ny)%nat -> (0 < nz)%nat ->
  let b := plate_span (2 * r + t * tan theta) r t in
  (exists pts, g_platehole mass t r theta nx ny nz = Ok pts /\ fills mass (slanted_region t r theta) b nx ny nz pts) /\ encloses b (slanted_region t r theta).
Proof.
  intros Ht Hr Hth Hm H1 H2 H3 b. assert (K := tan_pos theta Hth). split; [apply plate_fills; try assumption; [lra|nra]|].
  intros [[vx vy] vz]. unfold slanted_region, b, plate_span, in_span. fields. set (s := tan theta) in *. intros [A B]. apply Rabs_iff in A.
  assert (J1 : Rabs (vx - vz * s) <= r) by (apply Rsqr_incr_0_var; [rewrite <- Rsqr_abs; unfold Rsqr; nra|lra]).
  assert (J2 : Rabs vy <= r) by (apply Rsqr_incr_0_var; [rewrite <- Rsqr_abs; unfold Rsqr; assert (Q := pow2_ge_0 (vx - vz * s)); nra|lra]). rewrite Rabs_iff in J1, J2. split; [|lra]. assert (vz * s <= t / 2 * s) by nra. assert (- (t / 2 * s) <= vz * s) by nra. assert (0 <= t * s) by nra. lra.
Qed.
(* a hole leaning the other way: the lattice is too short, and points of the hole near the faces of the plate are never represented *)
Theorem C40_platehole_negative mass t r theta nx ny nz : 0 < t -> 0 < r -> - (PI / 2) < theta < 0 -> 2 * r / 3 < t * - tan theta < 2 * r -> mass <> 0 -> (0 < nx)%nat -> (0 < ny)%nat -> (0 < nz)%nat ->
  slanted_region t r theta (- r + t / 2 * tan theta, 0, t / 2) /\
  exists pts, g_platehole mass t r theta nx ny nz = Ok pts /\ forall p, In p pts -> Rabs (fst (fst (pp p))) < 2 * r + t * tan theta < r - t / 2 * tan theta.
Proof.
  intros Ht Hr Hth Hs Hm H1 H2 H3. set (s := tan theta) in *. split.
  - unfold slanted_region. fold s. rewrite Rabs_right by lra. split; [lra|]. right. ring.
  - destruct (plate_fills mass t r theta nx ny nz) as (pts & E & HF & _); try assumption; [lra|fold s; lra|]. exists pts. split; [exact E|]. intros p Hp. split; [|lra].
    assert (J : In (pp p) (map pp pts)) by now apply in_map. apply HF in J. destruct J as [J _]. destruct (pp p) as [[x y] z]. destruct J as (J & _). unfold plate_span in J. fold s in J. cbn [s_x0 s_x1] in J.
    apply centre_range in J; [|assumption|lra]. cbn [fst]. apply Rabs_def1; lra.
Qed.
(* a hole drilled along the leaning axis with a bit of radius r *)
Definition drilled_region (t r theta : R) : region := fun v => let '(x, y, z) := v in Rabs z <= t / 2 /\ ((x - z * tan theta) * cos theta) ^ 2 + y ^ 2 <= r ^ 2.
(* the points reach r to either side of the axis along x; the hole reaches r / cos theta *)
Theorem C40_platehole_narrow mass t r theta nx ny nz pts p z : 0 < t -> 0 < r -> 0 < theta < PI / 2 -> mass <> 0 -> (0 < nx)%nat -> (0 < ny)%nat -> (0 < nz)%nat -> Rabs z <= t / 2 ->
  g_platehole mass t r theta nx ny nz = Ok pts -> In p pts ->
  (let '(x, _, z') := pp p in Rabs (x - z' * tan theta) <= r) /\ r < r / cos theta /\ drilled_region t r theta (z * tan theta + r / cos theta, 0, z).
Proof.
  intros Ht Hr Hth Hm H1 H2 H3 Hz E Hp. assert (HPI := PI_RGT_0). assert (Hc : 0 < cos theta) by (apply cos_gt_0; lra). assert (Hc1 : cos theta < 1). { rewrite <- cos_0. apply cos_decreasing_1; lra. }
  destruct (C40_platehole mass t r theta nx ny nz) as ((pts' & E' & HF & _) & _); try assumption; [lra|]. rewrite E in E'. injection E' as <-. split; [|split].
  - assert (J : In (pp p) (map pp pts)) by now apply in_map. apply HF in J. destruct J as [_ J]. destruct (pp p) as [[vx vy] vz]. destruct J as [_ J]. apply Rsqr_incr_0_var; [rewrite <- Rsqr_abs; unfold Rsqr; nra|lra].
  - apply Rmult_lt_reg_r with (cos theta); [lra|]. replace (r / cos theta * cos theta) with r by (field; lra). nra.
  - unfold drilled_region. split; [exact Hz|]. right. field. lra.
Qed.

(* ---- random shell ---- *)
Theorem C40_random_shell mass r (u : list (R * R)) : 0 <= r ->
  (exists pts, g_random_shell mass r u = Ok pts /\ total_mass pts = mass /\ (forall p, In p pts -> vnorm (pp p) = r)) \/
  (g_random_shell mass r u = Err ZeroDivision /\ forall p, In p u -> 1 <= fst p ^ 2 + snd p ^ 2).
Proof.
  intros Hr. unfold g_random_shell. destruct (filter _ u) as [|p0 l0] eqn:EF.
  - right. split; [reflexivity|]. intros p Hp. apply Rnot_lt_le. intros K. assert (J : In p (filter (fun p => rlt (fst p ^ 2 + snd p ^ 2) 1) u)) by (apply filter_In; split; [assumption|now apply rlt_iff]). rewrite EF in J. destruct J.
  - left. set (keep := p0 :: l0) in *. eexists. split; [reflexivity|]. split.
    + assert (G : forall (n : R) (g : R * R -> vec) l, total_mass (map (fun p => mkpt n (g p)) l) = INR (length l) * n).
      { intros n g l. induction l as [|a l IH]; [cbn; ring|]. cbn [map length]. rewrite S_INR. cbn [total_mass fold_right pm] in *. unfold total_mass in IH. rewrite IH. ring. }
      rewrite (G (mass / INR (length keep)) (fun p => (2 * fst p * sqrt (1 - (fst p ^ 2 + snd p ^ 2)) * r, 2 * snd p * sqrt (1 - (fst p ^ 2 + snd p ^ 2)) * r, (1 - 2 * (fst p ^ 2 + snd p ^ 2)) * r))). field. apply not_0_INR. discriminate.
    + intros p Hp. apply in_map_iff in Hp. destruct Hp as ((a, b) & <- & Hq). rewrite <- EF in Hq. apply filter_In in Hq. destruct Hq as [_ Hq]. apply rlt_iff in Hq. cbn [fst snd pp] in *.
      unfold vnorm. set (s := a ^ 2 + b ^ 2) in *. assert (Es : sqrt (1 - s) ^ 2 = 1 - s) by (apply pow2_sqrt; lra). set (w := sqrt (1 - s)) in *. clearbody w.
      match goal with |- context [sqrt ?e] => replace e with (r ^ 2) end; [apply sqrt_pow2; assumption|].
      transitivity ((4 * s * (1 - s) + (1 - 2 * s) ^ 2) * r ^ 2); [ring|]. rewrite <- Es. unfold s. ring_simplify. replace (w ^ 2) with (1 - s) by lra. ring.
Qed.

(* ---- a total mass of zero divides 0 by 0 in the renormalisation ---- *)
Theorem C40_zero_mass r1 r2 t beta nx nz pts : 0 <= r1 < r2 -> 0 < t -> 0 < beta <= PI -> (0 < nx)%nat -> (0 < nz)%nat ->
  g_wedge 1 r1 r2 t beta nx nz = Ok pts -> pts <> nil -> g_wedge 0 r1 r2 t beta nx nz = Err NotFinite.
Proof.
  intros Hr Ht Hb H1 H3 E HN. assert (N1 := INRpos _ H1). assert (N3 := INRpos _ H3). assert (HPI := PI_RGT_0). unfold g_wedge in *. rewrite !no_cells_pos in * by assumption.
  assert (Hv : 0 < PI * (r2 ^ 2 - r1 ^ 2) * t) by (apply Rmult_lt_0_compat; [apply Rmult_lt_0_compat; [lra|nra]|lra]). rewrite is0_no in * by lra. cbv zeta in *. rewrite renormalise_ok in E.
  - injection E as <-. set (l := filter _ _) in *. destruct l as [|v l]; [now contradiction HN|]. unfold renormalise. set (vs := v :: l). rewrite sumR_const. rewrite is0_yes; [reflexivity|]. unfold Rdiv. ring.
  - apply mul_ne; [apply div_ne; lra|]. apply sector_cell_ne; try assumption. apply div_ne; lra.
Qed.

(* concrete cases *)
Example C40_cylhole_case : exists pts, g_cylhole 5 1 2 1 1 = Ok pts /\ In (0, 0, 0) (map pp pts) /\ total_mass pts = 5.
Proof.
  destruct (C40_cylhole 5 1 2 1 1) as ((pts & E & HF & _ & _ & HT) & _); try lra; try lia. exists pts. split; [exact E|].
  assert (K : In (0, 0, 0) (map pp pts)). { apply HF. unfold on_lattice, crossed_span, crossed_region. fields. split; [|split; lra]. split; [|split]; exists 0%nat; (split; [lia|cbn [INR]; field]). }
  split; [exact K|]. apply HT. intros ->. destruct K.
Qed.
Example C40_annulus_case : exists pts, g_annulus 3 1 2 1 2 1 = Ok pts /\ In (1, -1, 0) (map pp pts).
Proof.
  destruct (C40_annulus 3 1 2 1 2 1) as ([(pts & E & _ & HF & _)|[_ K]] & _); try lra; try lia.
  - exists pts. split; [exact E|]. apply HF. unfold on_lattice, z_span, ring. fields. rewrite Rabs_R0. split; [|lra]. split; [exists 1%nat; split; [lia|cbn [INR]; field]|]. split; [exists 0%nat; split; [lia|cbn [INR]; field]|exists 0%nat; split; [lia|cbn [INR]; field]].
  - exfalso. apply (K (1, -1, 0)).
    + unfold on_lattice, z_span. fields. split; [exists 1%nat; split; [lia|cbn [INR]; field]|]. split; [exists 0%nat; split; [lia|cbn [INR]; field]|exists 0%nat; split; [lia|cbn [INR]; field]].
    + unfold ring. rewrite Rabs_R0. lra.
Qed.
Example C40_negative_case : 2 * 1 / 3 < 1 * - tan (- (PI / 4)) < 2 * 1 /\ - (PI / 2) < - (PI / 4) < 0.
Proof. assert (HPI := PI_RGT_0). rewrite tan_neg, tan_PI4. lra. Qed.
Example C40_shell_case : exists pts, g_random_shell 2 3 ((0, 1 / 2) :: (1, 1) :: nil) = Ok pts /\ length pts = 1%nat.
Proof.
  unfold g_random_shell. cbn [filter fst snd]. rewrite (proj2 (rlt_iff (0 ^ 2 + (1 / 2) ^ 2) 1)) by lra. rewrite (proj2 (rlt_no (1 ^ 2 + 1 ^ 2) 1)) by lra. eexists. split; reflexivity.
Qed.

Print Assumptions C40_trapezoid. Print Assumptions C40_trapezoid_wide. Print Assumptions C40_tri_prism. Print Assumptions C40_tri_prism_below. Print Assumptions C40_tri_prism_all_below.
Print Assumptions C40_tetrahedron. Print Assumptions C40_tetrahedron_below. Print Assumptions C40_tetrahedron_all_below. Print Assumptions C40_tri_order. Print Assumptions C40_pyramid. Print Assumptions C40_pyramid_half_size.
Print Assumptions C40_ngon_prism. Print Assumptions C40_cylhole. Print Assumptions C40_platehole. Print Assumptions C40_platehole_negative. Print Assumptions C40_platehole_narrow. Print Assumptions C40_random_shell. Print Assumptions C40_zero_mass.
