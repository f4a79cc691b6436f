(* C41: the round Gauss-Legendre shapes of newt/gShapeGL.py *)
From Verif Require Import GShapeGL GLPoints MomentSpec MathSpec Qlm GlibShapes GlibShapesProofs Props_GlibShapes Props_GlibShapes2 GLProofs Props_GL.
From Coq Require Import Reals List ZArith Bool Lia Lra Sorting.
Import ListNotations.
Open Scope R_scope.

(* the array fills the solid, or no mapped point lies in it and the call raises IndexError *)
Definition gl_fills_or_raises (r : res (list pt)) (mass : R) (S : region) (b : span) (rx ry rz : list (R * R)) : Prop :=
  (exists pts, r = Ok pts /\ pts <> nil /\ gl_fills mass S b rx ry rz pts) \/ (r = Err IndexError /\ forall v w, on_rules b rx ry rz v w -> ~ S v).
Lemma correct_list_fills mass S b rx ry rz l : (exists pts, correct_mass mass l = Ok pts /\ (pts = nil <-> l = nil) /\ gl_fills mass S b rx ry rz pts) ->
  gl_fills_or_raises (correct_list mass l) mass S b rx ry rz.
Proof.
  intros (pts & E & EN & HF). unfold correct_list. destruct l as [|p l].
  - right. split; [reflexivity|]. intros v w Hv HS. assert (pts = nil) by now apply EN. subst pts. destruct HF as [HF _]. apply (HF v). split; [now exists w|assumption].
  - left. exists pts. split; [exact E|]. split; [|exact HF]. intros K. apply EN in K. discriminate.
Qed.
Definition cube_span (r : R) : span := mkspan (- r) r (- r) r (- r) r.
Theorem C41_sphere gl mass r dd : rules_at gl (dd :: nil) -> 0 < r -> mass <> 0 -> (0 < dd)%nat ->
  gl_fills_or_raises (gl_sphere gl mass r dd) mass (ball_region r) (cube_span r) (gl dd) (gl dd) (gl dd) /\ encloses (cube_span r) (ball_region r).
Proof.
  intros G Hr Hm H1. assert (HPI := PI_RGT_0). assert (GG := good_gauss _ _ (G dd ltac:(cbn; tauto))). assert (Hr3 : 0 < r ^ 3) by (apply pow_lt; assumption). split.
  - unfold gl_sphere. rewrite leg_ok by assumption. cbn [bind]. assert (HV : 4 / 3 * PI * r ^ 3 <> 0) by (apply mul_ne; [apply mul_ne; lra|lra]). rewrite is0_no by exact HV. cbv zeta.
    apply correct_list_fills. apply gl_grid_fills; try assumption; unfold cube_span; fields; try lra.
    + apply mul_ne; [now apply div_ne|lra].
    + intros s. field.
    + intros s. field.
    + intros s. field.
    + intros p _. unfold ball_region, vnorm. destruct (pp p) as [[x y] z]. rewrite rle_iff. split; intros H.
      * rewrite <- (sqrt_pow2 r) by lra. apply sqrt_le_1_alt. exact H.
      * assert (0 <= x ^ 2 + y ^ 2 + z ^ 2) by (assert (A := pow2_ge_0 x); assert (B := pow2_ge_0 y); assert (C := pow2_ge_0 z); lra). rewrite <- (pow2_sqrt (x ^ 2 + y ^ 2 + z ^ 2)) by assumption. apply pow_incr. split; [apply sqrt_pos|exact H].
  - intros [[x y] z]. unfold ball_region, vnorm, cube_span, in_span. fields. intros H.
    assert (0 <= x ^ 2 + y ^ 2 + z ^ 2) by (assert (A := pow2_ge_0 x); assert (B := pow2_ge_0 y); assert (C := pow2_ge_0 z); lra).
    assert (K : x ^ 2 + y ^ 2 + z ^ 2 <= r ^ 2). { rewrite <- (pow2_sqrt (x ^ 2 + y ^ 2 + z ^ 2)) by assumption. apply pow_incr. split; [apply sqrt_pos|exact H]. }
    assert (Rabs x <= r) by (apply Rsqr_incr_0_var; [rewrite <- Rsqr_abs; unfold Rsqr; nra|lra]). assert (Rabs y <= r) by (apply Rsqr_incr_0_var; [rewrite <- Rsqr_abs; unfold Rsqr; nra|lra]).
    assert (Rabs z <= r) by (apply Rsqr_incr_0_var; [rewrite <- Rsqr_abs; unfold Rsqr; nra|lra]). rewrite Rabs_iff in *. lra.
Qed.
(* a single point of the rule maps to the centre *)
Lemma first_ok n (r : rule) : (n <= length r)%nat -> first_n n r = Ok (firstn n r).
Proof. intros H. unfold first_n. now rewrite (proj2 (Nat.leb_le _ _)). Qed.
(* what annulus fills: a ring of twice the thickness, with the first dz points of the dd-point rule along z *)
Theorem C41_annulus gl mass iR oR t dd dz : rules_at gl (dd :: nil) -> 0 <= iR < oR -> 0 < t -> (0 < dd)%nat -> (dz <= dd)%nat ->
  gl_fills_or_raises (gl_annulus gl mass iR oR t dd dz) mass (ring iR oR (2 * t)) (z_span oR oR (2 * t)) (gl dd) (gl dd) (firstn dz (gl dd)).
Proof.
  intros G Hr Ht H1 H3. assert (GG := good_gauss _ _ (G dd ltac:(cbn; tauto))). unfold gl_annulus. rewrite leg_ok by assumption. cbn [bind]. rewrite first_ok by (now rewrite (gr_len _ _ (G dd ltac:(cbn; tauto)))). cbn [bind].
  apply correct_list_fills. apply gl_grid_fills; try assumption; unfold z_span; fields; try lra.
  - now apply good_first.
  - intros s. field.
  - intros s. field.
  - intros s. field.
  - intros p. destruct (pp p) as [[x y] z]. unfold in_span, ring. fields. intros (A1 & A2 & A3). rewrite andb_true_iff, !rle_iff, Rabs_iff. lra.
Qed.
(* more points along z than across: IndexError *)
Theorem C41_too_many_z gl mass iR oR t theta dd dz : rules_at gl (dd :: nil) -> (0 < dd)%nat -> (dd < dz)%nat -> oR <> 0 ->
  gl_annulus gl mass iR oR t dd dz = Err IndexError /\ gl_cone gl mass oR t dd dz = Err IndexError /\ gl_wedge gl mass iR oR t theta dd dz = Err IndexError.
Proof.
  intros G H1 H3 HR. assert (K : first_n dz (gl dd) = Err IndexError). { unfold first_n. rewrite (gr_len _ _ (G dd ltac:(cbn; tauto))). now rewrite (proj2 (Nat.leb_gt _ _)). }
  unfold gl_annulus, gl_cone, gl_wedge. rewrite leg_ok by assumption. cbn [bind]. rewrite is0_no by assumption. rewrite K. cbn [bind]. now repeat split.
Qed.
Lemma wide_node n r : gauss_rule n r -> (2 <= n)%nat -> exists p, In p r /\ 1 / 2 < Rabs (fst p).
Proof.
  intros G Hn. destruct (List.Exists_dec (fun p => 1 / 2 < Rabs (fst p)) r) as [H|H].
  - intros p. destruct (Rlt_dec (1 / 2) (Rabs (fst p))); [now left|now right].
  - apply Exists_exists in H. destruct H as (p & H). now exists p.
  - exfalso. assert (E := quad_pow n r 2 G ltac:(lia)). assert (E1 := quad_1 n r G ltac:(lia)). assert (K : quad r (fun x => x ^ 2) <= / 4 * quad r (fun _ => 1)).
    { assert (GG := good_gauss n r G). clear G E E1 Hn. induction r as [|p r IH]; [cbn; lra|]. cbn [quad fold_right] in *.
      assert (HP : Rabs (fst p) <= 1 / 2). { apply Rnot_lt_le. intros Q. apply H. now constructor. } destruct (GG p (or_introl eq_refl)) as [_ W].
      assert (IH' := IH ltac:(intros Q; apply H; now constructor 2) ltac:(intros q Hq; apply GG; now right)). unfold quad in IH'. apply Rabs_iff in HP. assert (fst p ^ 2 <= / 4) by nra. nra. }
    rewrite E, E1 in K. cbn in K. lra.
Qed.
(* so with dz = dd >= 2 the array leaves the documented thickness t *)
Theorem C41_annulus_too_thick gl mass iR oR t dd pts : rules_at gl (dd :: nil) -> 0 <= iR < oR -> 0 < t -> (2 <= dd)%nat ->
  gl_annulus gl mass iR oR t dd dd = Ok pts -> exists p, In p pts /\ ~ ring iR oR t (pp p).
Proof.
  intros G Hr Ht H1 E. assert (GG := G dd ltac:(cbn; tauto)). destruct (C41_annulus gl mass iR oR t dd dd G Hr Ht ltac:(lia) (Nat.le_refl _)) as [(pts' & E' & HN & HF & _)|[K _]]; [|congruence]. rewrite E in E'. injection E' as <-.
  rewrite firstn_all2 in HF by (now rewrite (gr_len _ _ GG)). destruct pts as [|p pts]; [contradiction|]. destruct (wide_node _ _ GG H1) as ((s, w) & Is & Ws). cbn [fst] in Ws.
  assert (J := proj1 (HF (pp p)) (or_introl eq_refl)). destruct (pp p) as [[x y] z]. destruct J as [(w0 & wx & wy & wz & Rx & Ry & Rz & _) HR]. unfold z_span in Rx, Ry, Rz. cbn [s_x0 s_x1 s_y0 s_y1 s_z0 s_z1] in Rx, Ry, Rz.
  assert (HS : -1 < s < 1) by apply (gr_in _ _ GG (s, w) Is).
  assert (Q : In (x, y, t * s) (map pp (p :: pts))). { apply HF. split.
    - exists (wx * wy * w), wx, wy, w. unfold z_span. fields. split; [exact Rx|]. split; [exact Ry|]. split; [|reflexivity]. exists s. split; [exact Is|]. field.
    - destruct HR as [HR _]. split; [exact HR|]. apply Rabs_iff. split; nra. }
  apply in_map_iff in Q. destruct Q as (q & Eq & Hq). exists q. split; [exact Hq|]. rewrite Eq. intros [_ K]. rewrite Rabs_mult, (Rabs_right t) in K by lra. nra.
Qed.
(* the documented height, for cone: two cones of height H, tip to tip at the origin *)
Definition double_cone (Rad H : R) : region := fun v => let '(x, y, z) := v in Rabs z <= H /\ x ^ 2 + y ^ 2 <= (Rad * z / H) ^ 2.
Theorem C41_cone gl mass Rad H dd dz : rules_at gl (dd :: nil) -> 0 < Rad -> 0 < H -> (0 < dd)%nat -> (dz <= dd)%nat ->
  gl_fills_or_raises (gl_cone gl mass Rad H dd dz) mass (double_cone Rad H) (mkspan (- Rad) Rad (- Rad) Rad (- H) H) (gl dd) (gl dd) (firstn dz (gl dd)).
Proof.
  intros G Hr Ht H1 H3. assert (GG := good_gauss _ _ (G dd ltac:(cbn; tauto))). unfold gl_cone. rewrite is0_no by lra. rewrite leg_ok by assumption. cbn [bind]. rewrite first_ok by (now rewrite (gr_len _ _ (G dd ltac:(cbn; tauto)))). cbn [bind]. rewrite is0_no by lra.
  apply correct_list_fills. apply gl_grid_fills; try assumption; fields; try lra.
  - now apply good_first.
  - intros s. field.
  - intros s. field.
  - intros s. field.
  - intros p. destruct (pp p) as [[x y] z]. unfold in_span, double_cone. fields. intros (A1 & A2 & A3). rewrite rle_iff, Rabs_iff. replace (z / (H / Rad)) with (Rad * z / H) by (field; lra). tauto.
Qed.
Theorem C41_wedge gl mass iR oR t theta dd dz : rules_at gl (dd :: nil) -> 0 <= iR < oR -> 0 < t -> 0 < theta <= PI -> (0 < dd)%nat -> (dz <= dd)%nat ->
  let b := sector_span iR oR theta (- t) t in
  (exists pts, gl_wedge gl mass iR oR t theta dd dz = Ok pts /\ gl_fills mass (ring_sector iR oR (2 * t) theta) b (gl dd) (gl dd) (firstn dz (gl dd)) pts) /\ encloses b (ring_sector iR oR (2 * t) theta).
Proof.
  intros G Hr Ht Hb H1 H3 b. assert (GG := good_gauss _ _ (G dd ltac:(cbn; tauto))). destruct (sector_size iR oR theta Hr Hb) as [Sx Sy]. split.
  - unfold gl_wedge. rewrite leg_ok by assumption. cbn [bind]. rewrite first_ok by (now rewrite (gr_len _ _ (G dd ltac:(cbn; tauto)))). cbn [bind].
    edestruct (gl_grid_fills mass (ring_sector iR oR (2 * t) theta) b (gl dd) (gl dd) (firstn dz (gl dd)) 1) as (pts & E & _ & HF); [lra|assumption|assumption|now apply good_first| | | | | | | |exists pts; split; [exact E|exact HF]]; unfold b; rewrite ?sector_span_eq; fields; try lra.
    + intros s. field.
    + intros s. field.
    + intros s. field.
    + intros p. destruct (pp p) as [[x y] z]. unfold in_span, ring_sector. fields. intros (A1 & A2 & A3). rewrite !andb_true_iff, !rle_iff, (Rabs_iff z), <- sector_test by lra. lra.
  - unfold b. rewrite sector_span_eq. intros [[vx vy] vz]. unfold in_span, ring_sector. fields. rewrite Rabs_iff. intros (A & B). apply sector_xy in A; lra.
Qed.
(* what tri_prism fills: only the middle half of the range of y *)
Definition tri_span (d y1 y2 t : R) : span := let lo := Rmin 0 y1 in let hi := Rmax 0 y2 in let c := (lo + hi) / 2 in let h := (hi - lo) / 4 in mkspan 0 d (c - h) (c + h) (- (t / 2)) (t / 2).
Theorem C41_tri_prism gl mass d y1 y2 t dx dy dz : rules_at gl (dx :: dy :: dz :: nil) -> 0 < d -> y1 < y2 -> 0 < t -> (0 < dx)%nat -> (0 < dy)%nat -> (0 < dz)%nat ->
  gl_fills_or_raises (gl_tri_prism gl mass d y1 y2 t dx dy dz) mass (triangle_region d y1 y2 t) (tri_span d y1 y2 t) (gl dx) (gl dy) (gl dz).
Proof.
  intros G Hd Hy Ht H1 H2 H3. assert (B := base_pos _ _ Hy). unfold base_of in B. unfold gl_tri_prism. rewrite (proj2 (rlt_no y2 y1)) by lra. cbv zeta. rewrite !leg_ok by assumption. cbn [bind].
  apply correct_list_fills. apply gl_grid_fills; try (eapply good_gauss; apply G; cbn; tauto); unfold tri_span; fields; try lra.
  - intros s. field.
  - intros s. field.
  - intros s. field.
  - intros p. destruct (pp p) as [[x y] z]. unfold in_span, triangle_region. fields. intros (A1 & A2 & A3). rewrite andb_true_iff, !rle_iff, tri_test, Rabs_iff by assumption. lra.
Qed.
(* the corner (d, y2) of the triangle, and all of it above three quarters of the range, are outside the box *)
Theorem C41_tri_prism_misses gl mass d y1 y2 t dx dy dz pts p : rules_at gl (dx :: dy :: dz :: nil) -> 0 < d -> 0 <= y1 < y2 -> 0 < t -> (0 < dx)%nat -> (0 < dy)%nat -> (0 < dz)%nat ->
  gl_tri_prism gl mass d y1 y2 t dx dy dz = Ok pts -> In p pts -> y2 / 4 < snd (fst (pp p)) < 3 * y2 / 4.
Proof.
  intros G Hd Hy Ht H1 H2 H3 E Hp. destruct (C41_tri_prism gl mass d y1 y2 t dx dy dz G Hd) as [(pts' & E' & _ & HF & _)|[K _]]; try assumption; try lra; [|congruence]. rewrite E in E'. injection E' as <-.
  assert (J : In (pp p) (map pp pts)) by now apply in_map. apply HF in J. destruct J as [(w & J) _]. destruct (pp p) as [[x y] z]. destruct J as (wx & wy & wz & _ & (s & Is & ->) & _). unfold tri_span. fields. rewrite Rmax_right, Rmin_left by lra. cbn [fst snd].
  assert (K : -1 < s < 1) by apply (gr_in _ _ (G dy ltac:(cbn; tauto)) (s, wy) Is). split; nra.
Qed.

(* fewer points along z than across: only the lowest ones, so the centre of mass is below the middle plane *)
Lemma slab_product (test : R -> R -> bool) rx ry fx fy fz : good rx -> good ry -> exists K, 0 <= K /\ forall rz (Z : R -> R) (F : pt -> R),
  (forall m x y z, F (mkpt m (x, y, z)) = m * Z z) ->
  sumR (map F (filter (fun p => let '(x, y, _) := pp p in test x y) (gl_grid 1 rx ry rz fx fy fz))) = K * quad rz (fun s => Z (fz s)).
Proof.
  intros G1 G2. exists (sumR (map (fun y => sumR (map (fun x => if test (fx (fst x)) (fy (fst y)) then snd x * snd y else 0) rx)) ry)). split.
  - assert (P : forall (f : R * R -> R) l, (forall a, In a l -> 0 <= f a) -> 0 <= sumR (map f l)). { intros f l. induction l as [|a l IH]; intros H; [cbn; lra|]. change (0 <= f a + sumR (map f l)). assert (0 <= f a) by (apply H; now left). assert (0 <= sumR (map f l)) by (apply IH; intros; apply H; now right). lra. }
    apply P. intros y Hy. apply P. intros x Hx. destruct (G1 x Hx) as [_ Wx]. destruct (G2 y Hy) as [_ Wy]. destruct (test _ _); [nra|lra].
  - intros rz Z F HF.
    assert (FF : forall (g : R * R -> list pt) l t, filter t (flat_map g l) = flat_map (fun a => filter t (g a)) l). { intros g l t. induction l as [|a l IH]; [reflexivity|]. cbn [flat_map]. now rewrite filter_app, IH. }
    unfold gl_grid. rewrite FF, sumR_flat. match goal with |- _ = ?k * quad _ _ => set (K := k) end. rewrite <- (quad_scal rz K (fun s => Z (fz s))). apply (sumR_quad rz (fun s => K * Z (fz s))). intros pz. unfold K. clear K.
    rewrite FF, sumR_flat. induction ry as [|y ry IH]; [cbn; ring|].
    change (sumR (map F (filter (fun p => let '(x, y0, _) := pp p in test x y0) (map (fun x => mkpt (1 * (snd x * snd y * snd pz)) (fx (fst x), fy (fst y), fz (fst pz))) rx))) + sumR (map (fun a => sumR (map F (filter (fun p => let '(x, y0, _) := pp p in test x y0) (map (fun x => mkpt (1 * (snd x * snd a * snd pz)) (fx (fst x), fy (fst a), fz (fst pz))) rx)))) ry)
      = snd pz * ((sumR (map (fun x => if test (fx (fst x)) (fy (fst y)) then snd x * snd y else 0) rx) + sumR (map (fun y => sumR (map (fun x => if test (fx (fst x)) (fy (fst y)) then snd x * snd y else 0) rx)) ry)) * Z (fz (fst pz)))).
    rewrite IH by (intros q Hq; apply G2; now right). clear IH. set (W := sumR (map (fun y0 => _) ry)).
    enough (E : sumR (map F (filter (fun p => let '(x, y0, _) := pp p in test x y0) (map (fun x => mkpt (1 * (snd x * snd y * snd pz)) (fx (fst x), fy (fst y), fz (fst pz))) rx))) = snd pz * Z (fz (fst pz)) * sumR (map (fun x => if test (fx (fst x)) (fy (fst y)) then snd x * snd y else 0) rx)) by (rewrite E; ring).
    clear W G1 G2. induction rx as [|x rx IH]; [cbn; ring|]. cbn [map filter pp]. destruct (test (fx (fst x)) (fy (fst y))).
    + match goal with |- sumR (map F (?a :: ?l)) = _ => change (sumR (map F (a :: l))) with (F a + sumR (map F l)) end. rewrite IH, HF. unfold sumR. cbn [fold_right map]. ring.
    + rewrite IH. unfold sumR. cbn [fold_right map]. ring.
Qed.
Lemma quad_app r1 r2 f : quad (r1 ++ r2) f = quad r1 f + quad r2 f.
Proof. induction r1 as [|p r IH]; [change (quad r2 f = 0 + quad r2 f); ring|]. cbn. unfold quad in IH. rewrite IH. unfold quad. ring. Qed.
Lemma quad_pos r f : r <> nil -> (forall p, In p r -> 0 < snd p * f (fst p)) -> 0 < quad r f.
Proof.
  intros Hr H. assert (K : forall l, (forall p, In p l -> 0 < snd p * f (fst p)) -> 0 <= quad l f). { induction l as [|p l IH]; intros Q; [cbn; lra|]. change (0 <= snd p * f (fst p) + quad l f). assert (A := Q p (or_introl eq_refl)). assert (0 <= quad l f) by (apply IH; intros; apply Q; now right). lra. }
  destruct r as [|p r]; [contradiction|]. change (0 < snd p * f (fst p) + quad r f). assert (A := H p (or_introl eq_refl)). assert (0 <= quad r f) by (apply K; intros; apply H; now right). lra.
Qed.
Lemma sorted_app (r1 r2 : rule) p q : StronglySorted Rlt (map fst (r1 ++ r2)) -> In p r1 -> In q r2 -> fst p < fst q.
Proof.
  induction r1 as [|a r IH]; intros HS [] Hq; inversion HS as [|? ? H1 H2]; subst.
  - rewrite List.Forall_forall in H2. apply H2. apply in_map. apply in_or_app. now right.
  - apply IH; assumption.
Qed.
Lemma low_half n r k : gauss_rule n r -> (0 < k < n)%nat -> quad (firstn k r) (fun s => s) < 0.
Proof.
  intros G Hk. assert (E := quad_pow n r 1 G ltac:(lia)). cbn [pow] in E. rewrite (quad_ext r _ (fun s => s)) in E by (intros; ring). replace ((1 - -1 * (-1 * 1)) / INR 2) with 0 in E by (cbn; field).
  assert (GG := good_gauss n r G). assert (SS := gr_sorted n r G). assert (LL := gr_len n r G). rewrite <- (firstn_skipn k r) in E, GG, SS.
  assert (L1 : length (firstn k r) = k) by (rewrite firstn_length; lia). assert (L2 : length (skipn k r) = (n - k)%nat) by (rewrite skipn_length; lia).
  set (h := firstn k r) in *. set (t := skipn k r) in *. clearbody h t. rewrite quad_app in E.
  assert (Hh : h <> nil) by (intros ->; cbn in L1; lia). assert (Ht : t <> nil) by (intros ->; cbn in L2; lia).
  destruct (List.Exists_dec (fun p => 0 <= fst p) h) as [H|H].
  { intros p. destruct (Rle_dec 0 (fst p)); [now left|now right]. }
  - apply Exists_exists in H. destruct H as (p & Ip & Hp). assert (K : 0 < quad t (fun s => s)); [|lra]. apply quad_pos; [assumption|]. intros q Iq. assert (fst p < fst q) by (eapply sorted_app; eassumption).
    destruct (GG q) as [_ W]; [apply in_or_app; now right|]. nra.
  - assert (K : 0 < quad h (fun s => - 1 * s)). { apply quad_pos; [assumption|]. intros q Iq. destruct (GG q) as [_ W]; [apply in_or_app; now left|]. assert (fst q < 0). { apply Rnot_le_lt. intros Q. apply H. apply Exists_exists. now exists q. } nra. }
    rewrite quad_scal in K. lra.
Qed.
Theorem C41_annulus_lopsided gl mass iR oR t dd dz pts : rules_at gl (dd :: nil) -> 0 <= iR < oR -> 0 < t -> 0 < mass -> (0 < dz < dd)%nat ->
  gl_annulus gl mass iR oR t dd dz = Ok pts -> sumR (map (fun p => pm p * snd (pp p)) pts) < 0.
Proof.
  intros G Hr Ht Hm Hd E. assert (GD := G dd ltac:(cbn; tauto)). assert (GG := good_gauss _ _ GD). unfold gl_annulus in E. rewrite leg_ok in E by lia. cbn [bind] in E. rewrite first_ok in E by (rewrite (gr_len _ _ GD); lia). cbn [bind] in E.
  destruct (slab_product (fun x y => (rle (iR ^ 2) (x ^ 2 + y ^ 2) && rle (x ^ 2 + y ^ 2) (oR ^ 2))%bool) (gl dd) (gl dd) (fun s => s * oR) (fun s => s * oR) (fun s => s * t) GG GG) as (K & KP & HK).
  set (l := filter _ _) in *. assert (E1 := HK (firstn dz (gl dd)) (fun _ => 1) pm ltac:(intros; cbn; ring)). assert (E2 := HK (firstn dz (gl dd)) (fun z => z) (fun p => pm p * snd (pp p)) ltac:(intros; cbn; ring)). fold l in E1, E2.
  assert (NL : l <> nil) by (intros Q; unfold correct_list in E; rewrite Q in E; discriminate).
  assert (C : correct_mass mass l = Ok pts) by (unfold correct_list in E; destruct l; [contradiction|exact E]).
  assert (P : forall p, In p l -> exists w, 0 < w /\ pm p = 1 * w). { intros p Hp. apply filter_In in Hp. destruct Hp as [Hp _]. apply in_gl_grid in Hp. destruct Hp as (x & y & z & Hx & Hy & Hz & ->). exists (snd x * snd y * snd z). cbn [pm]. split; [|reflexivity].
    destruct (GG x Hx) as [_ X]. destruct (GG y Hy) as [_ Y]. destruct (good_first dz _ GG z Hz) as [_ Z]. apply Rmult_lt_0_compat; [now apply Rmult_lt_0_compat|assumption]. }
  destruct (correct_ok mass 1 l ltac:(lra) P) as (d & C' & D). rewrite C in C'. injection C' as ->. specialize (D NL).
  assert (QP : 0 < quad (firstn dz (gl dd)) (fun _ => 1)). { apply quad_pos; [intros Q; assert (J := firstn_length dz (gl dd)); rewrite Q, (gr_len _ _ GD) in J; cbn [length] in J; lia|]. intros p Hp. destruct (good_first dz _ GG p Hp). lra. }
  assert (KN : K <> 0). { intros Q. rewrite E1, Q in D. lra. } assert (DP : 0 < d). { rewrite E1 in D. assert (0 < K * quad (firstn dz (gl dd)) (fun _ => 1)) by (apply Rmult_lt_0_compat; lra). nra. }
  rewrite map_map. cbn [pm pp]. replace (sumR (map (fun x => pm x * d * snd (pp x)) l)) with (d * sumR (map (fun p => pm p * snd (pp p)) l)).
  2:{ clear. induction l as [|p l IH]; [cbn; ring|]. change (d * (pm p * snd (pp p) + sumR (map (fun p => pm p * snd (pp p)) l)) = pm p * d * snd (pp p) + sumR (map (fun x => pm x * d * snd (pp x)) l)). rewrite <- IH. ring. }
  rewrite E2. assert (J := low_half dd (gl dd) dz GD ltac:(lia)). rewrite (quad_ext _ _ (fun s => t * s)) by (intros; ring). rewrite quad_scal. assert (0 < K) by lra. set (u := quad _ _) in *. clearbody u. assert (0 < d * K * t) by (apply Rmult_lt_0_compat; nra). nra.
Qed.

(* the rules of one and of two points *)
From Coquelicot Require Import Coquelicot.
Definition gl12 (n : nat) : rule := match n with 1%nat => (0, 2) :: nil | _ => (- / sqrt 3, 1) :: (/ sqrt 3, 1) :: nil end.
Lemma pow_int k : is_RInt (fun x => x ^ k) (-1) 1 ((1 - (-1) ^ S k) / INR (S k)).
Proof.
  assert (HS : INR (S k) <> 0) by (apply not_0_INR; discriminate). replace ((1 - (-1) ^ S k) / INR (S k)) with (1 ^ S k / INR (S k) - (-1) ^ S k / INR (S k)) by (rewrite pow1; field; assumption).
  apply (is_RInt_derive (V := R_CompleteNormedModule) (fun x => x ^ S k / INR (S k)) (fun x => x ^ k)).
  - intros x _. auto_derive; [exact I|]. change (match k with 0%nat => 1 | S _ => INR k + 1 end) with (INR (S k)). field. assumption.
  - intros x _. apply (ex_derive_continuous (V := R_NormedModule)). auto_derive. exact I.
Qed.
Lemma is_RInt_eq (f : R -> R) (a b u v : R) : u = v -> is_RInt f a b u -> is_RInt f a b v. Proof. now intros ->. Qed.
Example gl12_rules : rules_at gl12 (1 :: 2 :: nil)%nat.
Proof.
  intros n [<-|[<-|[]]].
  - split; [reflexivity| | |].
    + intros p [<-|[]]. cbn. lra.
    + cbn. constructor; constructor.
    + intros k Hk. eapply is_RInt_eq; [|apply pow_int]. cbn [gl12]. unfold quad. cbn [fold_right fst snd]. destruct k as [|[|k]]; [cbn; field|cbn; field|lia].
  - assert (S3 : 0 < sqrt 3) by (apply sqrt_lt_R0; lra). assert (Q3 : sqrt 3 * sqrt 3 = 3) by (apply sqrt_sqrt; lra). assert (S1 : 1 < sqrt 3) by nra.
    assert (I3 : 0 < / sqrt 3 < 1). { split; [now apply Rinv_0_lt_compat|]. rewrite <- Rinv_1. apply Rinv_lt_contravar; lra. }
    split; [reflexivity| | |].
    + intros p [<-|[<-|[]]]; cbn; lra.
    + cbn. constructor; [constructor; constructor|constructor; [lra|constructor]].
    + intros k Hk. eapply is_RInt_eq; [|apply pow_int]. cbn [gl12]. unfold quad. cbn [fold_right fst snd].
      assert (E : / sqrt 3 * / sqrt 3 = 1 / 3) by (rewrite <- Rinv_mult, Q3; field). set (i := / sqrt 3) in *. clearbody i.
      destruct k as [|[|[|[|k]]]]; [cbn; field|cbn; field| | |lia].
      * cbn. lra.
      * cbn. field.
Qed.
Example C41_case : exists pts, gl_rectangle gl12 5 2 3 4 2 2 1 = Ok pts /\ length pts = 4%nat /\ total_mass pts = 5.
Proof. apply (C41_rectangle_mass gl12 5 2 3 4 2 2 1); try lia. intros n [<-|[<-|[<-|[]]]]; apply gl12_rules; cbn; tauto. Qed.
Example C41_thick_case : exists pts, gl_annulus gl12 5 0 1 1 2 2 = Ok pts.
Proof.
  assert (G : rules_at gl12 (2 :: nil)%nat) by (intros n [<-|[]]; apply gl12_rules; cbn; tauto).
  destruct (C41_annulus gl12 5 0 1 1 2 2 G) as [(pts & E & _)|[_ K]]; try lra; try lia; [now exists pts|]. exfalso.
  assert (S3 : 0 < sqrt 3) by (apply sqrt_lt_R0; lra). assert (Q3 : sqrt 3 * sqrt 3 = 3) by (apply sqrt_sqrt; lra). assert (S1 : 1 < sqrt 3) by nra.
  assert (E : / sqrt 3 * / sqrt 3 = 1 / 3) by (rewrite <- Rinv_mult, Q3; field). assert (I3 : 0 < / sqrt 3 < 1). { split; [now apply Rinv_0_lt_compat|]. rewrite <- Rinv_1. apply Rinv_lt_contravar; lra. }
  apply (K (/ sqrt 3, / sqrt 3, / sqrt 3) (1 * 1 * 1)).
  - exists 1, 1, 1. unfold z_span. fields. split; [|split; [|split; [|reflexivity]]]; exists (/ sqrt 3); (split; [cbn; tauto|field; lra]).
  - unfold ring. set (i := / sqrt 3) in *. clearbody i. rewrite Rabs_right by lra. cbn. nra.
Qed.
Example C41_lopsided_case : exists pts, gl_annulus gl12 5 0 1 1 2 1 = Ok pts.
Proof.
  assert (G : rules_at gl12 (2 :: nil)%nat) by (intros n [<-|[]]; apply gl12_rules; cbn; tauto).
  destruct (C41_annulus gl12 5 0 1 1 2 1 G) as [(pts & E & _)|[_ K]]; try lra; try lia; [now exists pts|]. exfalso.
  assert (S3 : 0 < sqrt 3) by (apply sqrt_lt_R0; lra). assert (Q3 : sqrt 3 * sqrt 3 = 3) by (apply sqrt_sqrt; lra). assert (S1 : 1 < sqrt 3) by nra.
  assert (E : / sqrt 3 * / sqrt 3 = 1 / 3) by (rewrite <- Rinv_mult, Q3; field). assert (I3 : 0 < / sqrt 3 < 1). { split; [now apply Rinv_0_lt_compat|]. rewrite <- Rinv_1. apply Rinv_lt_contravar; lra. }
  apply (K (/ sqrt 3, / sqrt 3, - / sqrt 3) (1 * 1 * 1)).
  - exists 1, 1, 1. unfold z_span. fields. split; [|split; [|split; [|reflexivity]]]; [exists (/ sqrt 3)|exists (/ sqrt 3)|exists (- / sqrt 3)]; (split; [cbn; tauto|field; lra]).
  - unfold ring. set (i := / sqrt 3) in *. clearbody i. rewrite Rabs_left by lra. cbn. nra.
Qed.
Print Assumptions C41_sphere. Print Assumptions C41_annulus. Print Assumptions C41_too_many_z. Print Assumptions C41_annulus_too_thick. Print Assumptions C41_cone. Print Assumptions C41_wedge.
Print Assumptions C41_tri_prism. Print Assumptions C41_tri_prism_misses. Print Assumptions C41_annulus_lopsided.
