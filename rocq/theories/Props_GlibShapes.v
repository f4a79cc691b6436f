(* C40: the point masses of newt/glibShapes.py *)
From Verif Require Import GlibShapes PointSpec MomentSpec Qlm MathSpec Solid GlibShapesProofs.
From Coq Require Import Reals List ZArith Bool Lia Lra.
Import ListNotations.
Open Scope R_scope.

(* either the array fills the solid, or no lattice point lies in it and the call raises IndexError *)
Definition fills_or_raises (r : res (list pt)) (mass : R) (S : region) (b : span) (nx ny nz : nat) : Prop :=
  (exists pts, r = Ok pts /\ pts <> nil /\ fills mass S b nx ny nz pts) \/ (r = Err IndexError /\ forall v, on_lattice b nx ny nz v -> ~ S v).

Lemma nodivpos (a b : R) : 0 < a -> 0 < b -> a / b <> 0.
Proof. intros. apply Rgt_not_eq, Rdiv_lt_0_compat; assumption. Qed.
Lemma INRpos n : (0 < n)%nat -> 0 < INR n. Proof. intros. apply lt_0_INR. assumption. Qed.
Lemma mul_ne a b : a <> 0 -> b <> 0 -> a * b <> 0.
Proof. intros H1 H2 K. apply Rmult_integral in K. tauto. Qed.
Lemma div_ne a b : a <> 0 -> b <> 0 -> a / b <> 0.
Proof. intros H1 H2. apply mul_ne; [assumption|now apply Rinv_neq_0_compat]. Qed.
Ltac ne := match goal with |- ?a * ?b <> 0 => (lra || (apply mul_ne; ne)) | |- ?a / ?b <> 0 => apply div_ne; ne | |- _ => lra end.
Lemma Rabs_iff x a : Rabs x <= a <-> - a <= x <= a.
Proof. split; [intros H; unfold Rabs in H; destruct (Rcase_abs x); lra|intros; now apply Rabs_le]. Qed.
Lemma renormalise_list_ok mass pm l S b nx ny nz test fx fy fz : l = filter test (grid nx ny nz fx fy fz) -> pm <> 0 -> fills mass S b nx ny nz (even_mass mass l) ->
  fills_or_raises (renormalise_list mass pm l) mass S b nx ny nz.
Proof.
  intros El Hp HF. unfold renormalise_list. destruct l as [|v l].
  - right. split; [reflexivity|]. intros v Hv Sv. destruct HF as (HF & _). cbn in HF. apply (HF v). now split.
  - left. rewrite renormalise_ok by assumption. exists (even_mass mass (v :: l)). split; [reflexivity|]. split; [discriminate|assumption].
Qed.

(* ---- coordinates ---- *)
Lemma pymod_eq a b : exists k : Z, pymod a b = a - b * IZR k.
Proof. eexists. reflexivity. Qed.
Lemma pymod_range a b : 0 < b -> 0 <= pymod a b < b.
Proof.
  intros Hb. unfold pymod. destruct (base_Int_part (a / b)) as [H1 H2]. assert (E : a = b * (a / b)) by (field; lra). set (k := IZR (Int_part (a / b))) in *. set (c := a / b) in *. clearbody k c. subst a. split; nra.
Qed.
Lemma cos_per (x : R) (k : Z) : cos (x + 2 * IZR k * PI) = cos x.
Proof.
  destruct (Z_le_dec 0 k) as [H|H].
  - rewrite <- (Z2Nat.id k) by lia. rewrite <- INR_IZR_INZ. apply cos_period.
  - replace (cos x) with (cos (x + 2 * IZR k * PI + 2 * INR (Z.to_nat (- k)) * PI)); [symmetry; apply cos_period|]. f_equal. rewrite INR_IZR_INZ, Z2Nat.id by lia. rewrite opp_IZR. ring.
Qed.
Lemma sin_per (x : R) (k : Z) : sin (x + 2 * IZR k * PI) = sin x.
Proof.
  destruct (Z_le_dec 0 k) as [H|H].
  - rewrite <- (Z2Nat.id k) by lia. rewrite <- INR_IZR_INZ. apply sin_period.
  - replace (sin x) with (sin (x + 2 * IZR k * PI + 2 * INR (Z.to_nat (- k)) * PI)); [symmetry; apply sin_period|]. f_equal. rewrite INR_IZR_INZ, Z2Nat.id by lia. rewrite opp_IZR. ring.
Qed.
(* cylindrical coordinates: radius >= 0, angle in [0, 2 pi), and the way back gives the point *)
Theorem C40_cylindrical (v : vec) : let '(r, q, _) := cart_2_cyl v in 0 <= r /\ 0 <= q < 2 * PI /\ cyl_2_cart (cart_2_cyl v) = v.
Proof.
  destruct v as [[x y] z]. unfold cart_2_cyl. assert (HPI := PI_RGT_0). split; [apply sqrt_pos|]. split; [apply pymod_range; lra|].
  unfold cyl_2_cart. destruct (pymod_eq (arctan2 y x + 2 * PI) (2 * PI)) as [k ->]. destruct (arctan2_polar x y) as (E1 & E2 & _). fold (rad x y).
  replace (arctan2 y x + 2 * PI - 2 * PI * IZR k) with (arctan2 y x + 2 * IZR (1 - k) * PI) by (rewrite minus_IZR; ring). rewrite cos_per, sin_per. f_equal. f_equal; symmetry; assumption.
Qed.
Theorem C40_cylindrical_back (r q z : R) : 0 < r -> 0 <= q < 2 * PI -> cart_2_cyl (cyl_2_cart (r, q, z)) = (r, q, z).
Proof.
  intros Hr Hq. assert (HPI := PI_RGT_0). assert (K := C40_cylindrical (cyl_2_cart (r, q, z))). unfold cyl_2_cart in K at 1. unfold cart_2_cyl in K at 1. destruct K as (K1 & K2 & K3).
  unfold cyl_2_cart in K3 at 2 3. unfold cyl_2_cart at 1. unfold cart_2_cyl in K3 |- *. fold (rad (r * cos q) (r * sin q)) in *. rewrite rad_polar in * by lra. set (p := pymod _ _) in *. clearbody p.
  unfold cyl_2_cart in K3. injection K3 as E1 E2. apply Rmult_eq_reg_l in E1, E2; [|lra|lra].
  f_equal. f_equal. assert (C : p - PI = q - PI); [|lra].
  destruct (Req_dec p 0) as [P|P], (Req_dec q 0) as [Q|Q]; [lra| | |].
  - subst p. rewrite cos_0 in E1. rewrite sin_0 in E2. exfalso. assert (K : sin (q / 2) = 0). { replace q with (2 * (q / 2)) in E1 by field. rewrite cos_2a_sin in E1. assert (sin (q / 2) * sin (q / 2) = 0) by lra. apply Rmult_integral in H. tauto. }
    assert (0 < sin (q / 2)) by (apply sin_gt_0; lra). lra.
  - subst q. rewrite cos_0 in E1. exfalso. assert (K : sin (p / 2) = 0). { replace p with (2 * (p / 2)) in E1 by field. rewrite cos_2a_sin in E1. assert (sin (p / 2) * sin (p / 2) = 0) by lra. apply Rmult_integral in H. tauto. }
    assert (0 < sin (p / 2)) by (apply sin_gt_0; lra). lra.
  - apply angle_unique; [lra|lra| |].
    + replace (p - PI) with (- (PI - p)) by ring. replace (q - PI) with (- (PI - q)) by ring. rewrite !cos_neg, !Rtrigo_facts.cos_pi_minus. now rewrite E1.
    + replace (p - PI) with (- (PI - p)) by ring. replace (q - PI) with (- (PI - q)) by ring. rewrite !sin_neg, !Rtrigo_facts.sin_pi_minus. now rewrite E2.
Qed.

(* ---- bricks and spheres ---- *)
Lemma grid_len nx ny nz fx fy fz : length (grid nx ny nz fx fy fz) = (nx * ny * nz)%nat.
Proof.
  assert (K : forall (f : nat -> list vec) c n a, (forall i, length (f i) = c) -> length (flat_map f (seq a n)) = (c * n)%nat).
  { intros f c n. induction n as [|n IH]; intros a H; [cbn; lia|]. cbn [seq flat_map]. rewrite app_length, H, IH by assumption. lia. }
  unfold grid. apply K. intros k. apply K. intros l. rewrite map_length, seq_length. reflexivity.
Qed.
Lemma filter_all {A} (p : A -> bool) l : (forall x, In x l -> p x = true) -> filter p l = l.
Proof. induction l as [|a l IH]; intros H; [reflexivity|]. cbn. rewrite (H a) by now left. f_equal. apply IH. intros; apply H. now right. Qed.
Lemma rectangle_eq mass x y z nx ny nz : (0 < nx)%nat -> (0 < ny)%nat -> (0 < nz)%nat ->
  g_rectangle mass x y z nx ny nz = Ok (even_mass mass (grid nx ny nz (cell nx (x / INR nx)) (cell nx (y / INR ny)) (cell nz (z / INR nz)))).
Proof.
  intros H1 H2 H3. unfold g_rectangle. rewrite !no_cells_pos by assumption. cbn [orb]. unfold even_mass. now rewrite grid_len.
Qed.
Definition brick_span (c : vec) (a b h : R) : span := let '(cx, cy, cz) := c in mkspan (cx - a / 2) (cx + a / 2) (cy - b / 2) (cy + b / 2) (cz - h / 2) (cz + h / 2).
(* what rectangle fills: the brick moved along y by half the difference of the two counts *)
Theorem C40_rectangle mass x y z nx ny nz : 0 < x -> 0 < y -> 0 < z -> (0 < nx)%nat -> (0 < ny)%nat -> (0 < nz)%nat ->
  let c := (0, (INR ny - INR nx) / 2 * (y / INR ny), 0) in
  exists pts, g_rectangle mass x y z nx ny nz = Ok pts /\ fills mass (brick c x y z) (brick_span c x y z) nx ny nz pts /\ encloses (brick_span c x y z) (brick c x y z).
Proof.
  intros Hx Hy Hz H1 H2 H3 c. eexists. split; [now apply rectangle_eq|].
  assert (N1 := INRpos _ H1). assert (N2 := INRpos _ H2). assert (N3 := INRpos _ H3). split.
  - rewrite <- (filter_all (fun _ => true) (grid _ _ _ _ _ _)) by reflexivity. unfold c. apply grid_fills; try assumption; cbn [brick_span s_x0 s_x1 s_y0 s_y1 s_z0 s_z1]; try lra.
    + intros i. unfold cell. field. lra.
    + intros i. unfold cell. field. lra.
    + intros i. unfold cell. field. lra.
    + intros [[vx vy] vz]. unfold in_span, brick. cbn [s_x0 s_x1 s_y0 s_y1 s_z0 s_z1]. intros (A1 & A2 & A3). split; [intros _|reflexivity]. rewrite !Rabs_iff. lra.
  - intros [[vx vy] vz]. unfold c, in_span, brick, brick_span. cbn [s_x0 s_x1 s_y0 s_y1 s_z0 s_z1]. rewrite !Rabs_iff. lra.
Qed.
(* the documented brick, when the two counts agree *)
Theorem C40_rectangle_equal_counts mass x y z n nz : 0 < x -> 0 < y -> 0 < z -> (0 < n)%nat -> (0 < nz)%nat ->
  exists pts, g_rectangle mass x y z n n nz = Ok pts /\ fills mass (brick (0, 0, 0) x y z) (brick_span (0, 0, 0) x y z) n n nz pts.
Proof.
  intros. destruct (C40_rectangle mass x y z n n nz) as (pts & H4 & H5 & _); try assumption. exists pts. split; [assumption|].
  now replace ((INR n - INR n) / 2 * (y / INR n)) with 0 in H5 by (field; apply Rgt_not_eq, INRpos; assumption).
Qed.
(* with counts that differ by two or more some of the points are outside the brick *)
Theorem C40_rectangle_outside mass x y z nx ny nz : 0 < x -> 0 < y -> 0 < z -> (0 < nx)%nat -> (0 < ny)%nat -> (0 < nz)%nat -> (nx + 2 <= ny \/ ny + 2 <= nx)%nat ->
  exists pts p, g_rectangle mass x y z nx ny nz = Ok pts /\ In p pts /\ ~ brick (0, 0, 0) x y z (pp p).
Proof.
  intros Hx Hy Hz H1 H2 H3 H. destruct (C40_rectangle mass x y z nx ny nz) as (pts & E & (HF & _) & _); try assumption.
  assert (N1 := INRpos _ H1). assert (N2 := INRpos _ H2). assert (N3 := INRpos _ H3).
  set (c := (INR ny - INR nx) / 2 * (y / INR ny)) in *. assert (Hs : 0 < y / INR ny) by (apply Rdiv_lt_0_compat; lra).
  assert (G : forall j, (j < ny)%nat -> (INR j - (INR nx - 1) / 2) * (y / INR ny) < - (y / 2) \/ y / 2 < (INR j - (INR nx - 1) / 2) * (y / INR ny) -> exists pts p, g_rectangle mass x y z nx ny nz = Ok pts /\ In p pts /\ ~ brick (0, 0, 0) x y z (pp p)).
  { intros j Hj K. exists pts. set (v := (0 - x / 2 + (INR 0 + 1 / 2) * ((0 + x / 2 - (0 - x / 2)) / INR nx), (INR j - (INR nx - 1) / 2) * (y / INR ny), 0 - z / 2 + (INR 0 + 1 / 2) * ((0 + z / 2 - (0 - z / 2)) / INR nz)) : vec).
    assert (Hv : In v (map pp pts)).
    { apply HF. assert (HL : on_lattice (brick_span (0, c, 0) x y z) nx ny nz v).
      { unfold v, brick_span, on_lattice. cbn [s_x0 s_x1 s_y0 s_y1 s_z0 s_z1]. split; [exists 0%nat; split; [assumption|reflexivity]|]. split; [|exists 0%nat; split; [assumption|reflexivity]].
        exists j. split; [assumption|]. unfold c. field. lra. }
      split; [exact HL|]. unfold v, on_lattice, brick_span in HL |- *. cbn [s_x0 s_x1 s_y0 s_y1 s_z0 s_z1] in HL. destruct HL as (L1 & L2 & L3). apply centre_range in L1, L2, L3; try assumption; try lra.
      unfold brick. rewrite !Rabs_iff. lra. }
    apply in_map_iff in Hv. destruct Hv as (p & Ep & Hp). exists p. split; [assumption|]. split; [assumption|]. rewrite Ep. unfold v, brick. rewrite !Rabs_iff. intros (_ & K2 & _). lra. }
  assert (Ey : y = INR ny * (y / INR ny)) by (field; lra).
  destruct H as [H|H].
  - apply (G (ny - 1)%nat); [lia|]. right. rewrite minus_INR by lia. cbn [INR]. apply le_INR in H. rewrite plus_INR in H. cbn [INR] in H. nra.
  - apply (G 0%nat); [lia|]. left. apply le_INR in H. rewrite plus_INR in H. cbn [INR] in H |- *. nra.
Qed.
Lemma cell_small n s i : (i < n)%nat -> 0 < s -> Rabs (cell n (s / INR n) i) <= s / 2.
Proof.
  intros Hi Hs. assert (HN : 0 < INR n) by (apply INRpos; lia). assert (K := centre_range (- (s / 2)) (s / 2) n (cell n (s / INR n) i)).
  apply Rabs_iff. enough (- (s / 2) < cell n (s / INR n) i < s / 2) by lra. apply K; [lia|lra|]. exists i. split; [assumption|]. unfold cell. field. lra.
Qed.
(* sphere keeps every point of a cube whose side is the radius: it is the brick, not the ball *)
Theorem C40_sphere_is_a_cube mass Rad N : 0 < Rad -> mass <> 0 -> (0 < N)%nat -> g_sphere mass Rad N = g_rectangle mass Rad Rad Rad N N N.
Proof.
  intros HR Hm HN. rewrite rectangle_eq by assumption. unfold g_sphere. rewrite no_cells_pos by assumption.
  rewrite renormalise_ok by (apply div_ne; [assumption|apply pow_nonzero, Rgt_not_eq, INRpos; assumption]). rewrite filter_all; [reflexivity|].
  intros [[x y] z] Hv. apply in_grid in Hv. destruct Hv as ((i & Hi & ->) & (j & Hj & ->) & (k & Hk & ->)).
  apply rle_iff. assert (A := cell_small N Rad i Hi HR). assert (B := cell_small N Rad j Hj HR). assert (C := cell_small N Rad k Hk HR). rewrite Rabs_iff in A, B, C.
  rewrite <- (sqrt_pow2 Rad) at 4 by lra. apply sqrt_le_1_alt. nra.
Qed.
(* so a point of the ball beyond half the radius is never represented: every returned point has all coordinates within half the radius *)
Theorem C40_sphere_misses mass Rad N pts p : 0 < Rad -> mass <> 0 -> (0 < N)%nat -> g_sphere mass Rad N = Ok pts -> In p pts ->
  ball_region Rad (pp p) /\ brick (0, 0, 0) Rad Rad Rad (pp p).
Proof.
  intros HR Hm HN E Hp. rewrite C40_sphere_is_a_cube in E by assumption. destruct (C40_rectangle_equal_counts mass Rad Rad Rad N N) as (pts' & E' & (HF & _)); try assumption.
  rewrite E in E'. injection E' as <-. assert (K : brick (0, 0, 0) Rad Rad Rad (pp p)). { apply (HF (pp p)). now apply in_map. }
  split; [|exact K]. destruct (pp p) as [[x y] z]. unfold brick in K. rewrite !Rabs_iff in K. unfold ball_region, vnorm. cbn. rewrite <- (sqrt_pow2 Rad) by lra. apply sqrt_le_1_alt. nra.
Qed.
Example C40_brick_case : exists pts, g_rectangle 6 2 4 6 2 3 1 = Ok pts /\ length pts = 6%nat.
Proof. rewrite rectangle_eq by lia. eexists. split; [reflexivity|]. unfold even_mass. rewrite map_length, grid_len. reflexivity. Qed.

(* ---- rings and sectors ---- *)
Definition z_span (a b h : R) : span := mkspan (- a) a (- b) b (- (h / 2)) (h / 2).
Theorem C40_annulus mass r1 r2 t nx nz : 0 <= r1 < r2 -> 0 < t -> mass <> 0 -> (0 < nx)%nat -> (0 < nz)%nat ->
  fills_or_raises (g_annulus mass r1 r2 t nx nz) mass (ring r1 r2 t) (z_span r2 r2 t) nx nx nz /\ encloses (z_span r2 r2 t) (ring r1 r2 t).
Proof.
  intros Hr Ht Hm H1 H3. assert (N1 := INRpos _ H1). assert (N3 := INRpos _ H3). assert (HPI := PI_RGT_0). split.
  - unfold g_annulus. rewrite !no_cells_pos by assumption. cbn [orb]. assert (Hv : 0 < PI * (r2 ^ 2 - r1 ^ 2) * t) by (apply Rmult_lt_0_compat; [apply Rmult_lt_0_compat; [lra|nra]|lra]). rewrite is0_no by lra. cbv zeta.
    eapply renormalise_list_ok; [reflexivity| |].
    + ne.
    + apply grid_fills; try assumption; unfold z_span; cbn [s_x0 s_x1 s_y0 s_y1 s_z0 s_z1]; try lra.
      * intros i. unfold cell. field. lra.
      * intros i. unfold cell. field. lra.
      * intros i. unfold cell. field. lra.
      * intros [[vx vy] vz]. unfold in_span, ring. cbn [s_x0 s_x1 s_y0 s_y1 s_z0 s_z1]. intros (A1 & A2 & A3). rewrite andb_true_iff, !rle_iff, Rabs_iff. lra.
  - intros [[vx vy] vz]. unfold in_span, ring, z_span. cbn [s_x0 s_x1 s_y0 s_y1 s_z0 s_z1]. rewrite Rabs_iff. intros ((_ & A) & B).
    assert (Rabs vx <= r2) by (apply Rsqr_incr_0_var; [rewrite <- Rsqr_abs; unfold Rsqr; nra|lra]).
    assert (Rabs vy <= r2) by (apply Rsqr_incr_0_var; [rewrite <- Rsqr_abs; unfold Rsqr; nra|lra]). rewrite Rabs_iff in H, H0. lra.
Qed.
(* the box around a sector of half angle beta *)
Definition sector_span (r1 r2 beta z0 z1 : R) : span :=
  if Rlt_dec beta (PI / 2) then mkspan (r1 * cos beta) r2 (- (r2 * sin beta)) (r2 * sin beta) z0 z1 else mkspan (r2 * cos beta) r2 (- r2) r2 z0 z1.
Lemma sector_span_eq r1 r2 beta z0 z1 : sector_span r1 r2 beta z0 z1 = mkspan (x_min beta r1 r2) r2 (- y_max beta r2) (y_max beta r2) z0 z1.
Proof. unfold sector_span, x_min, y_max, rlt. destruct (Rlt_dec beta (PI / 2)); f_equal; ring. Qed.
Lemma sector_size r1 r2 beta : 0 <= r1 < r2 -> 0 < beta <= PI -> x_min beta r1 r2 < r2 /\ 0 < y_max beta r2.
Proof.
  intros Hr Hb. unfold x_min, y_max. assert (HPI := PI_RGT_0). assert (C := COS_bound beta). destruct (rlt beta (PI / 2)) eqn:E.
  - apply rlt_iff in E. assert (0 < sin beta) by (apply sin_gt_0; lra). assert (0 < cos beta) by (apply cos_gt_0; lra). split; nra.
  - apply rlt_no in E. assert (cos beta <= 0) by (apply cos_le_0; lra). split; nra.
Qed.
Lemma sector_fills mass pm r1 r2 beta z0 z1 nx nz fz test S : 0 <= r1 < r2 -> 0 < beta <= PI -> z0 < z1 -> (0 < nx)%nat -> (0 < nz)%nat ->
  (forall i, fz i = cell nz ((z1 - z0) / INR nz) i + (z0 + z1) / 2) -> pm <> 0 ->
  (forall v, in_span (sector_span r1 r2 beta z0 z1) v -> (test v = true <-> S v)) ->
  exists pts, renormalise mass pm (filter test (sector_grid beta r1 r2 nx nz fz)) = Ok pts /\ fills mass S (sector_span r1 r2 beta z0 z1) nx nx nz pts.
Proof.
  intros Hr Hb Hz H1 H3 Fz Hp HT. destruct (sector_size r1 r2 beta Hr Hb) as [Hx Hy]. rewrite sector_span_eq in *.
  eexists. split; [now apply renormalise_ok|]. assert (N1 := INRpos _ H1). apply grid_fills; try assumption; cbn [s_x0 s_x1 s_y0 s_y1 s_z0 s_z1]; try lra.
  - intros i. unfold cell. field. lra.
  - intros i. unfold cell. field. lra.
Qed.
Lemma sector_cell_ne beta r1 r2 zg nx : 0 <= r1 < r2 -> 0 < beta <= PI -> zg <> 0 -> (0 < nx)%nat -> sector_cell beta r1 r2 zg nx <> 0.
Proof.
  intros Hr Hb Hz H1. destruct (sector_size r1 r2 beta Hr Hb) as [Hx Hy]. assert (N1 := INRpos _ H1). unfold sector_cell. ne.
Qed.
Theorem C40_wedge mass r1 r2 t beta nx nz : 0 <= r1 < r2 -> 0 < t -> 0 < beta <= PI -> mass <> 0 -> (0 < nx)%nat -> (0 < nz)%nat ->
  let b := sector_span r1 r2 beta (- (t / 2)) (t / 2) in
  (exists pts, g_wedge mass r1 r2 t beta nx nz = Ok pts /\ fills mass (ring_sector r1 r2 t beta) b nx nx nz pts) /\ encloses b (ring_sector r1 r2 t beta).
Proof.
  intros Hr Ht Hb Hm H1 H3 b. assert (N1 := INRpos _ H1). assert (N3 := INRpos _ H3). assert (HPI := PI_RGT_0). split.
  - unfold g_wedge. rewrite !no_cells_pos by assumption. assert (Hv : 0 < PI * (r2 ^ 2 - r1 ^ 2) * t) by (apply Rmult_lt_0_compat; [apply Rmult_lt_0_compat; [lra|nra]|lra]). rewrite is0_no by lra. cbv zeta.
    apply sector_fills; try assumption; try lra.
    + intros i. unfold cell. field. lra.
    + apply mul_ne; [apply div_ne; lra|]. apply sector_cell_ne; try assumption. apply div_ne; lra.
    + intros [[vx vy] vz]. rewrite sector_span_eq. unfold in_span, ring_sector. cbn [s_x0 s_x1 s_y0 s_y1 s_z0 s_z1]. intros (A1 & A2 & A3). rewrite !andb_true_iff, !rle_iff, (Rabs_iff vz), <- sector_test by lra. lra.
  - unfold b. rewrite sector_span_eq. intros [[vx vy] vz]. unfold in_span, ring_sector. cbn [s_x0 s_x1 s_y0 s_y1 s_z0 s_z1]. rewrite Rabs_iff. intros (A & B).
    apply sector_xy in A; lra.
Qed.
Lemma in_sector_mono r1 r2 r3 beta x y : r2 <= r3 -> in_sector r1 r2 beta x y -> in_sector r1 r3 beta x y.
Proof. intros H (r & q & H1 & H2 & H3). exists r, q. split; [lra|now split]. Qed.
Theorem C40_cone mass Rad H beta nx nz : 0 < Rad -> 0 < H -> 0 < beta <= PI -> mass <> 0 -> (0 < nx)%nat -> (0 < nz)%nat ->
  let b := sector_span 0 Rad beta 0 H in
  (exists pts, g_cone mass Rad H beta nx nz = Ok pts /\ fills mass (cone_region Rad H beta) b nx nx nz pts) /\ encloses b (cone_region Rad H beta).
Proof.
  intros Hr Ht Hb Hm H1 H3 b. assert (N1 := INRpos _ H1). assert (N3 := INRpos _ H3). assert (HPI := PI_RGT_0). split.
  - unfold g_cone. rewrite !no_cells_pos by assumption. assert (Hv : 0 < PI * H * Rad ^ 2 / 3). { apply Rdiv_lt_0_compat; [|lra]. apply Rmult_lt_0_compat; nra. } rewrite is0_no by lra. cbv zeta.
    apply sector_fills; try assumption; try lra.
    + intros i. unfold cell. field. lra.
    + apply mul_ne; [apply div_ne; lra|]. apply sector_cell_ne; try assumption; try lra. apply div_ne; lra.
    + intros [[vx vy] vz]. rewrite sector_span_eq. unfold in_span, cone_region. cbn [s_x0 s_x1 s_y0 s_y1 s_z0 s_z1]. intros (A1 & A2 & A3). rewrite !andb_true_iff, !rle_iff, <- sector_test by lra.
      assert (K : 0 <= Rad * (1 - vz / H)). { apply Rmult_le_pos; [lra|]. apply Rmult_le_reg_r with H; [lra|]. replace ((1 - vz / H) * H) with (H - vz) by (field; lra). lra. }
      assert (J := rad_nonneg vx vy). split.
      * intros [B1 B2]. split; [exact A3|]. split; [exact B1|]. split; [exact J|]. apply Rsqr_incr_0_var; [unfold Rsqr|exact K]. nra.
      * intros (_ & B1 & _ & B2). split; [exact B1|]. replace (Rad ^ 2 * (1 - vz / H) ^ 2) with ((Rad * (1 - vz / H)) ^ 2) by ring. apply pow_incr. lra.
  - unfold b. rewrite sector_span_eq. intros [[vx vy] vz]. unfold in_span, cone_region. cbn [s_x0 s_x1 s_y0 s_y1 s_z0 s_z1]. intros (A & B).
    apply (in_sector_mono _ _ Rad) in B; [apply sector_xy in B; lra|]. assert (0 <= vz / H). { apply Rmult_le_pos; [lra|]. left. apply Rinv_0_lt_compat. lra. } nra.
Qed.
Theorem C40_outer_cone mass r1 r2 H beta nx nz : 0 <= r1 < r2 -> 0 < H -> 0 < beta <= PI -> mass <> 0 -> (0 < nx)%nat -> (0 < nz)%nat ->
  let b := sector_span r1 r2 beta 0 H in
  (exists pts, g_outer_cone mass r1 r2 H beta nx nz = Ok pts /\ fills mass (outer_cone_region r1 r2 H beta) b nx nx nz pts) /\ encloses b (outer_cone_region r1 r2 H beta).
Proof.
  intros Hr Ht Hb Hm H1 H3 b. assert (N1 := INRpos _ H1). assert (N3 := INRpos _ H3). assert (HPI := PI_RGT_0). split.
  - unfold g_outer_cone. rewrite !no_cells_pos by assumption. rewrite (is0_no (r2 - r1)) by lra. cbv zeta.
    replace (beta * (H * r2 / (r2 - r1) * r2 ^ 2 / 3 - H * r1 ^ 2 - (H * r2 / (r2 - r1) - H) * r1 ^ 2 / 3)) with (beta * H * ((r2 ^ 2 + r1 * r2 + r1 ^ 2) / 3 - r1 ^ 2)) by (field; lra).
    assert (Hv : 0 < beta * H * ((r2 ^ 2 + r1 * r2 + r1 ^ 2) / 3 - r1 ^ 2)) by (apply Rmult_lt_0_compat; [apply Rmult_lt_0_compat; lra|nra]).
    rewrite is0_no by lra. assert (HT : 0 < H / (r2 - r1)) by (apply Rdiv_lt_0_compat; lra). rewrite is0_no by lra.
    apply sector_fills; try assumption; try lra.
    + intros i. unfold cell. field. lra.
    + apply mul_ne; [apply div_ne; lra|]. apply sector_cell_ne; try assumption; try lra. apply div_ne; lra.
    + intros [[vx vy] vz]. rewrite sector_span_eq. unfold in_span, outer_cone_region. cbn [s_x0 s_x1 s_y0 s_y1 s_z0 s_z1]. intros (A1 & A2 & A3). rewrite !andb_true_iff, !rle_iff, <- sector_test by lra.
      replace (vz / (H / (r2 - r1))) with ((r2 - r1) * vz / H) by (field; lra). lra.
  - unfold b. rewrite sector_span_eq. intros [[vx vy] vz]. unfold in_span, outer_cone_region. cbn [s_x0 s_x1 s_y0 s_y1 s_z0 s_z1]. intros (A & B).
    apply (in_sector_mono _ _ r2) in B; [apply sector_xy in B; lra|]. assert (0 <= (r2 - r1) * vz / H). { apply Rmult_le_pos; [nra|]. left. apply Rinv_0_lt_compat. lra. } lra.
Qed.

Print Assumptions C40_cylindrical. Print Assumptions C40_cylindrical_back. Print Assumptions C40_rectangle. Print Assumptions C40_rectangle_equal_counts. Print Assumptions C40_rectangle_outside.
Print Assumptions C40_sphere_is_a_cube. Print Assumptions C40_sphere_misses. Print Assumptions C40_annulus. Print Assumptions C40_wedge. Print Assumptions C40_cone. Print Assumptions C40_outer_cone.
