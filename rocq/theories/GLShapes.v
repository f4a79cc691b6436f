(* The spheres, sectors of rings, rings, cones and bricks of newt/gShapeGL.py: their arrays tend to homogeneous solids. *)
From Coq Require Import Reals Lra Lia List Bool.
From Coquelicot Require Import Coquelicot.
From Verif Require Import Glib Res LipInt BodyInt SolidSpec VInt PointSpec NewtonSpec Newton ShapeSpec GLSpec GLPoints GShapeGL GlibShapes GlibShapesProofs Props_GlibShapes Props_GlibShapes2 GLProofs Props_GL Props_GL2 Gauss Props_GL3 QlmProofs3 RefineSpec Refine2 Refine3 Refine4 Refine5 Polar Refine7 Refine8 Refine9 Refine10 GLRefineSpec.
From Verif Require Import Cplx.
From Verif Require Import Refine GLEven GLLimit GLCount GLPieces GLTends.
Import ListNotations.
Open Scope R_scope.

Lemma quad_some (r : list (R * R)) f : quad r f <> 0 -> exists p, In p r /\ f (fst p) <> 0.
Proof.
  induction r as [|p r IH]; [intros H; now contradiction H|]. intros H. destruct (Req_dec (f (fst p)) 0) as [E|E]; [|exists p; split; [now left|exact E]].
  destruct IH as (q & Hq & F). { intros Z. apply H. cbn. unfold quad in Z. rewrite Z, E. ring. } exists q. split; [now right|exact F].
Qed.
Lemma gq_some a b r f : gq a b r f <> 0 -> exists x w, on_rule r a b x w /\ f x <> 0.
Proof.
  intros H. destruct (quad_some _ _ H) as ((s, w) & Hp & F). cbn [fst] in F. exists ((a + b) / 2 + s * ((b - a) / 2)), w. split; [now exists s|]. intros Z. apply F. rewrite Z. ring.
Qed.
Lemma gsum_some bx rx ry rz h : gsum bx rx ry rz h <> 0 -> exists v w, on_rules bx rx ry rz v w /\ h v <> 0.
Proof.
  intros H. apply gq_some in H. destruct H as (z & wz & Hz & H). apply gq_some in H. destruct H as (y & wy & Hy & H). apply gq_some in H. destruct H as (x & wx & Hx & H).
  exists (x, y, z), (wx * wy * wz). split; [|exact H]. exists wx, wy, wz. tauto.
Qed.
Lemma gcounts_some bx S J (s : vec -> bool) : (forall v, s v = true <-> S v) -> gcounts bx S J -> 0 < J (fun _ => 1) ->
  exists N, (0 < N)%nat /\ forall nx ny nz rx ry rz, (N <= nx)%nat -> (N <= ny)%nat -> (N <= nz)%nat -> gauss_rule nx rx -> gauss_rule ny ry -> gauss_rule nz rz -> exists v w, on_rules bx rx ry rz v w /\ S v.
Proof.
  intros Hs C PV. destruct (C Rs (fun _ => 1) (UC_cst (pprod Rs V3) 1)) as (_ & L). destruct (L 1 (J (fun _ => 1) / 2) ltac:(lra)) as (N & HN & Q). exists N. split; [exact HN|]. intros nx ny nz rx ry rz K1 K2 K3 G1 G2 G3.
  assert (Z := Q nx ny nz rx ry rz 0 s K1 K2 K3 G1 G2 G3 ltac:(cbn; rewrite Rabs_R0; lra) Hs). cbv beta in Z. apply Rabs_le_between in Z.
  destruct (gsum_some bx rx ry rz (fun v => chi (s v) * 1)) as (v & w & H1 & H2); [lra|]. exists v, w. split; [exact H1|]. apply Hs. destruct (s v); [reflexivity|]. exfalso. apply H2. cbn. ring.
Qed.
Lemma dec_bool (S : region) : (forall v, {S v} + {~ S v}) -> exists s : vec -> bool, forall v, s v = true <-> S v.
Proof. intros D. exists (fun v => if D v then true else false). intros v. destruct (D v); split; intros; (assumption || reflexivity || discriminate || contradiction). Qed.
Lemma list_ok mass l pts : correct_list mass l = Ok pts -> correct_mass mass l = Ok pts /\ pts <> [].
Proof.
  destruct l as [|p l]; [discriminate|]. intros E. split; [exact E|]. cbn in E. destruct (is0 _); [discriminate|]. injection E as <-. discriminate.
Qed.
Lemma first_all n (r : list (R * R)) : length r = n -> firstn n r = r. Proof. intros <-. apply firstn_all. Qed.

Section Sector.
Variables (z0 z1 r1 r2 : R) (rho : R -> R) (beta : R).
Hypotheses (Hz : z0 < z1) (H1 : 0 <= r1) (Hrho : forall z, z0 <= z <= z1 -> r1 <= rho z <= r2) (Urho : UC Rs Rs rho) (Hb : 0 < beta <= PI).
Theorem span_gcounts : r1 < r2 -> gcounts (sector_span r1 r2 beta z0 z1) (slab z0 z1 r1 rho beta) (polar z0 z1 r1 rho beta).
Proof.
  intros H12. assert (HPI := PI_RGT_0). unfold sector_span. destruct (Rlt_dec beta (PI / 2)) as [L|L].
  - assert (S : 0 < sin beta) by (apply sin_gt_0; lra). assert (C : cos beta <= 1) by apply COS_bound. assert (C0 : 0 < cos beta) by (apply cos_gt_0; lra).
    apply (gcounts_small z0 z1 r1 r2 rho); cbn [s_x0 s_x1 s_y0 s_y1 s_z0 s_z1]; try assumption; try reflexivity; try lra; nra.
  - destruct (Req_dec beta (PI / 2)) as [E|E].
    + apply (gcounts_small z0 z1 r1 r2 rho); cbn [s_x0 s_x1 s_y0 s_y1 s_z0 s_z1]; rewrite ?E, ?cos_PI2, ?sin_PI2; try assumption; try reflexivity; lra.
    + assert (C : cos beta <= 0) by (apply cos_le_0; lra). apply (gcounts_large z0 z1 r1 r2 rho); cbn [s_x0 s_x1 s_y0 s_y1 s_z0 s_z1]; try assumption; try reflexivity; try lra; nra.
Qed.
Lemma disc_gcounts : r1 < r2 -> gcounts (mkspan (- r2) r2 (- r2) r2 z0 z1) (slab z0 z1 r1 rho PI) (polar z0 z1 r1 rho PI).
Proof.
  intros H12. clear Hb beta. assert (HPI := PI_RGT_0). apply (gcounts_large z0 z1 r1 r2 rho); cbn [s_x0 s_x1 s_y0 s_y1 s_z0 s_z1]; rewrite ?cos_PI; try assumption; try reflexivity; lra.
Qed.
End Sector.
Lemma full_sector r1 r2 x y : 0 <= r1 <= r2 -> (in_sector r1 r2 PI x y <-> r1 ^ 2 <= x ^ 2 + y ^ 2 <= r2 ^ 2).
Proof.
  intros H. split.
  - intros (q & p & Hq & _ & -> & ->). assert (T := sin2_cos2 p). unfold Rsqr in T. replace ((q * cos p) ^ 2 + (q * sin p) ^ 2) with (q ^ 2 * (sin p * sin p + cos p * cos p)) by ring. rewrite T, Rmult_1_r. split; apply pow_incr; lra.
  - intros (S1 & S2). destruct (arctan2_polar x y) as (E1 & E2 & E3). exists (rad x y), (MathSpec.arctan2 y x). split; [|split; [lra|now split]]. unfold rad. split.
    + rewrite <- (sqrt_pow2 r1) by lra. now apply sqrt_le_1_alt.
    + rewrite <- (sqrt_pow2 r2) by lra. now apply sqrt_le_1_alt.
Qed.
Lemma half t : - (2 * t / 2) = - t /\ 2 * t / 2 = t. Proof. split; field. Qed.

(* ---- sectors of rings ---- *)
Lemma wedge_made mass iR oR t theta n pts : 0 <= iR < oR -> 0 < t -> 0 < theta <= PI ->
  (exists gl dd, (n < dd)%nat /\ rules_at gl (dd :: nil) /\ gl_wedge gl mass iR oR t theta dd dd = Ok pts) -> gmade mass (PointSpec.ring_sector iR oR (2 * t) theta) (sector_span iR oR theta (- t) t) n pts.
Proof.
  intros Hr Ht Hb (gl & dd & Hd & GR & E). assert (G := GR dd ltac:(cbn; tauto)). destruct (sector_size iR oR theta Hr Hb) as [Sx Sy].
  unfold gl_wedge in E. rewrite leg_ok in E by lia. cbn [bind] in E. rewrite first_ok in E by (now rewrite (gr_len _ _ G)). rewrite (first_all _ _ (gr_len _ _ G)) in E. cbn [bind] in E.
  refine (ex_intro _ dd (ex_intro _ dd (ex_intro _ dd (ex_intro _ (gl dd) (ex_intro _ (gl dd) (ex_intro _ (gl dd) (ex_intro _ 1 (ex_intro _ (fun v : vec => let '(x, y, _) := v in (rle (Rabs (MathSpec.arctan2 y x)) theta && rle (rad x y) oR && rle iR (rad x y))%bool) (ex_intro _ _ (ex_intro _ _ (ex_intro _ _ (conj Hd (conj Hd (conj Hd (conj G (conj G (conj G _))))))))))))))))).
  split; [lra|]. rewrite sector_span_eq. fields. split; [|split; [|split; [|split; [|exact E]]]].
  - intros [[x y] z]. unfold in_span, PointSpec.ring_sector. fields. intros (A1 & A2 & A3). rewrite !andb_true_iff, !rle_iff, (Rabs_iff z), <- sector_test by lra. lra.
  - intros s. cbv beta. field.
  - intros s. cbv beta. field.
  - intros s. cbv beta. field.
Qed.
Theorem gl_wedge_tends mass iR oR t theta r : 0 <= iR < oR -> 0 < t -> 0 < theta <= PI -> 0 <= r -> oR ^ 2 + t ^ 2 <= r ^ 2 ->
  tends (fun n pts => exists gl dd, (n < dd)%nat /\ rules_at gl (dd :: nil) /\ gl_wedge gl mass iR oR t theta dd dd = Ok pts) (of_mass mass (annular_sector (2 * t) iR oR 0 theta)) r /\ forall n, exists pts gl dd, (n < dd)%nat /\ rules_at gl (dd :: nil) /\ gl_wedge gl mass iR oR t theta dd dd = Ok pts.
Proof.
  intros Hr Ht Hb H0 Hn. assert (Uc : UC Rs Rs (fun _ : R => oR)) by apply UC_cst. assert (Hrr : forall z : R, - t <= z <= t -> iR <= oR <= oR) by (intros; lra). destruct (half t) as (Ha & Hb').
  assert (C := span_gcounts (- t) t iR oR (fun _ => oR) theta ltac:(lra) ltac:(lra) Hrr Uc Hb (proj2 Hr)).
  assert (PV := polar_pos (- t) t iR (fun _ => oR) theta ltac:(lra) ltac:(lra) Uc Hb ltac:(intros; lra)).
  assert (ES : forall v, slab (- t) t iR (fun _ => oR) theta v <-> PointSpec.ring_sector iR oR (2 * t) theta v) by (intros [[x y] z]; unfold slab, PointSpec.ring_sector; rewrite Hb', Rabs_iff; tauto).
  assert (C' := gcounts_ext _ _ _ _ _ ES (fun g _ => eq_refl) C). destruct (span_ok (- t) t iR oR theta ltac:(lra) ltac:(lra) Hb (proj2 Hr)) as (X1 & X2 & X3).
  destruct (C41_rules_exist (1%nat :: nil)) as (gl1 & G1).
  split.
  - apply (tends_sub (gmade mass (PointSpec.ring_sector iR oR (2 * t) theta) (sector_span iR oR theta (- t) t))); [intros n pts H; now apply wedge_made|].
    apply (gmade_tends _ _ _ (annular_sector (2 * t) iR oR 0 theta) mass r C'); try assumption.
    + intros g G. assert (A := annular_body (2 * t) iR oR theta g G). rewrite Ha, Hb' in A. exact A.
    + intros v Hv. apply (ring_norm iR oR (2 * t) theta r v); rewrite ?Hb'; try assumption; try lra; now apply ES.
    + exact (proj2 (C41_wedge gl1 1 iR oR t theta 1 1 G1 Hr Ht Hb ltac:(lia) ltac:(lia))).
  - intros n. destruct (C41_rules_exist (Datatypes.S n :: nil)) as (gl & G2). destruct (proj1 (C41_wedge gl mass iR oR t theta (Datatypes.S n) (Datatypes.S n) G2 Hr Ht Hb ltac:(lia) ltac:(lia))) as (pts & E & _).
    exists pts, gl, (Datatypes.S n). split; [lia|split; [exact G2|exact E]].
Qed.

(* ---- rings ---- *)
Theorem gl_annulus_tends mass iR oR t r : 0 <= iR < oR -> 0 < t -> 0 <= r -> oR ^ 2 + t ^ 2 <= r ^ 2 ->
  tends (fun n pts => exists gl dd, (n < dd)%nat /\ rules_at gl (dd :: nil) /\ gl_annulus gl mass iR oR t dd dd = Ok pts) (of_mass mass (annular_sector (2 * t) iR oR 0 PI)) r /\ forall n, exists pts gl dd, (n < dd)%nat /\ rules_at gl (dd :: nil) /\ gl_annulus gl mass iR oR t dd dd = Ok pts.
Proof.
  intros Hr Ht H0 Hn. assert (HPI := PI_RGT_0). assert (Uc : UC Rs Rs (fun _ : R => oR)) by apply UC_cst. assert (Hrr : forall z : R, - t <= z <= t -> iR <= oR <= oR) by (intros; lra). destruct (half t) as (Ha & Hb').
  assert (C := disc_gcounts (- t) t iR oR (fun _ => oR) ltac:(lra) ltac:(lra) Hrr Uc (proj2 Hr)).
  assert (PV := polar_pos (- t) t iR (fun _ => oR) PI ltac:(lra) ltac:(lra) Uc ltac:(lra) ltac:(intros; lra)).
  assert (ES : forall v, slab (- t) t iR (fun _ => oR) PI v <-> PointSpec.ring iR oR (2 * t) v).
  { intros [[x y] z]. unfold slab, PointSpec.ring. rewrite Hb', Rabs_iff, full_sector by lra. tauto. }
  assert (C' := gcounts_ext _ _ _ _ _ ES (fun g _ => eq_refl) C).
  assert (MD : forall n pts, (exists gl dd, (n < dd)%nat /\ rules_at gl (dd :: nil) /\ gl_annulus gl mass iR oR t dd dd = Ok pts) -> gmade mass (PointSpec.ring iR oR (2 * t)) (mkspan (- oR) oR (- oR) oR (- t) t) n pts).
  { intros n pts (gl & dd & Hd & GR & E). assert (G := GR dd ltac:(cbn; tauto)). unfold gl_annulus in E. rewrite leg_ok in E by lia. cbn [bind] in E. rewrite first_ok in E by (now rewrite (gr_len _ _ G)). rewrite (first_all _ _ (gr_len _ _ G)) in E. cbn [bind] in E. apply list_ok in E. destruct E as (E & _).
    refine (ex_intro _ dd (ex_intro _ dd (ex_intro _ dd (ex_intro _ (gl dd) (ex_intro _ (gl dd) (ex_intro _ (gl dd) (ex_intro _ 1 (ex_intro _ (fun v : vec => let '(x, y, _) := v in (rle (iR ^ 2) (x ^ 2 + y ^ 2) && rle (x ^ 2 + y ^ 2) (oR ^ 2))%bool) (ex_intro _ _ (ex_intro _ _ (ex_intro _ _ (conj Hd (conj Hd (conj Hd (conj G (conj G (conj G _))))))))))))))))).
    split; [lra|]. fields. split; [|split; [|split; [|split; [|exact E]]]]; try (intros s; cbv beta; field).
    intros [[x y] z]. unfold in_span, PointSpec.ring. fields. intros (A1 & A2 & A3). rewrite andb_true_iff, !rle_iff, Rabs_iff. lra. }
  split.
  - apply (tends_sub _ _ _ _ MD). apply (gmade_tends _ _ _ (annular_sector (2 * t) iR oR 0 PI) mass r C'); fields; try assumption; try lra.
    + intros g G. assert (A := annular_body (2 * t) iR oR PI g G). rewrite Ha, Hb' in A. exact A.
    + intros v Hv. apply (ring_norm iR oR (2 * t) PI r v); rewrite ?Hb'; try assumption; try lra; now apply ES.
    + intros [[x y] z]. unfold PointSpec.ring, in_span. fields. rewrite Hb', Rabs_iff. intros ((_ & Q) & Z). assert (A := pow2_ge_0 x). assert (B := pow2_ge_0 y). split; [|split; [|exact Z]]; split; nra.
  - intros n. destruct (dec_bool (slab (- t) t iR (fun _ => oR) PI)) as (s & Hs).
    { intros [[x y] z]. unfold slab. destruct (Rle_dec (- t) z), (Rle_dec z t), (Rle_dec (iR ^ 2) (x ^ 2 + y ^ 2)), (Rle_dec (x ^ 2 + y ^ 2) (oR ^ 2)); ((left; split; [lra|apply full_sector; lra]) || (right; intros (Z & Q); apply full_sector in Q; lra)). }
    destruct (gcounts_some _ _ _ s Hs C PV) as (N & HN & Q). set (k := (n + N + 1)%nat). destruct (C41_rules_exist (k :: nil)) as (gl & G2). assert (G := G2 k ltac:(cbn; tauto)).
    destruct (C41_annulus gl mass iR oR t k k G2 Hr Ht ltac:(unfold k; lia) ltac:(lia)) as [(pts & E & _)|(_ & NO)]; [exists pts, gl, k; split; [unfold k; lia|split; [exact G2|exact E]]|].
    exfalso. rewrite (first_all _ _ (gr_len _ _ G)) in NO. destruct (Q k k k (gl k) (gl k) (gl k)) as (v & w & V1 & V2); try assumption; try (unfold k; lia). apply (NO v w); [|now apply ES]. unfold z_span. rewrite Ha, Hb'. exact V1.
Qed.

(* ---- double cones ---- *)
Theorem gl_cone_tends mass Rad H r : 0 < Rad -> 0 < H -> 0 <= r -> Rad ^ 2 + H ^ 2 <= r ^ 2 ->
  tends (fun n pts => exists gl dd, (n < dd)%nat /\ rules_at gl (dd :: nil) /\ gl_cone gl mass Rad H dd dd = Ok pts) (of_mass mass (two_cones Rad H)) r /\ forall n, exists pts gl dd, (n < dd)%nat /\ rules_at gl (dd :: nil) /\ gl_cone gl mass Rad H dd dd = Ok pts.
Proof.
  intros HR HH H0 Hn. assert (HPI := PI_RGT_0). set (rho := fun z => Rad * Rabs z / H). assert (U0 : UC Rs Rs (fun y => y)) by (apply UC_LL, LL_id).
  assert (Uc : UC Rs Rs rho). { unfold rho, Rdiv. apply UC_mult; [|apply UC_cst]. apply UC_mult; [apply UC_cst|]. apply (UC_abs Rs (fun z => z)). exact U0. }
  assert (Hs : forall z, - H <= z <= H -> 0 <= Rabs z / H <= 1). { intros z Hz. assert (A := Rabs_pos z). split; [apply Rmult_le_pos; [lra|left; now apply Rinv_0_lt_compat]|]. apply (Rmult_le_reg_r H); [lra|]. replace (Rabs z / H * H) with (Rabs z) by (field; lra). rewrite Rmult_1_l. now apply Rabs_le. }
  assert (Er : forall z, rho z = Rad * (Rabs z / H)) by (intros z; unfold rho; field; lra).
  assert (Hrr : forall z : R, - H <= z <= H -> 0 <= rho z <= Rad). { intros z Hz. assert (S := Hs z Hz). rewrite Er. split; nra. }
  assert (C := disc_gcounts (- H) H 0 Rad rho ltac:(lra) ltac:(lra) Hrr Uc HR).
  assert (PV : 0 < polar (- H) H 0 rho PI (fun _ => 1)).
  { assert (Rp : forall z, z <> 0 -> 0 < rho z). { intros z Hz. rewrite Er. apply Rmult_lt_0_compat; [lra|]. apply Rdiv_lt_0_compat; [now apply Rabs_pos_lt|lra]. }
    assert (P1 := polar_pos (- H) 0 0 rho PI ltac:(lra) ltac:(lra) Uc ltac:(lra) ltac:(intros z Hz; apply Rp; lra)). assert (P2' := polar_pos 0 H 0 rho PI ltac:(lra) ltac:(lra) Uc ltac:(lra) ltac:(intros z Hz; apply Rp; lra)).
    unfold polar in *. rewrite <- (RInt_join (fun z => RInt (fun th => RInt (fun r => r * 1) 0 (rho z)) (- PI) PI) (- H) 0 H); [lra|]. exact (U_arc 0 rho Uc (fun _ => 1) (- PI) PI (UC_cst V3 1)). }
  assert (ES : forall v, slab (- H) H 0 rho PI v <-> double_cone Rad H v).
  { intros [[x y] z]. unfold slab, double_cone. rewrite Rabs_iff. split; intros (Z & Q); (split; [exact Z|]).
    - apply full_sector in Q; [|assert (A := Hrr z Z); lra]. rewrite Er in Q. replace ((Rad * z / H) ^ 2) with (Rad ^ 2 * (z ^ 2 / H ^ 2)) by (field; lra). rewrite pow2_abs in * || idtac. replace ((Rad * (Rabs z / H)) ^ 2) with (Rad ^ 2 * (Rabs z ^ 2 / H ^ 2)) in Q by (field; lra). rewrite pow2_abs in Q. tauto.
    - apply full_sector; [assert (A := Hrr z Z); lra|]. rewrite Er. replace ((Rad * z / H) ^ 2) with (Rad ^ 2 * (z ^ 2 / H ^ 2)) in Q by (field; lra). replace ((Rad * (Rabs z / H)) ^ 2) with (Rad ^ 2 * (Rabs z ^ 2 / H ^ 2)) by (field; lra). rewrite pow2_abs. assert (A := pow2_ge_0 x). assert (B := pow2_ge_0 y). split; [|exact Q]. rewrite pow_i by lia. lra. }
  assert (C' := gcounts_ext _ _ _ _ _ ES (fun g _ => eq_refl) C).
  assert (MD : forall n pts, (exists gl dd, (n < dd)%nat /\ rules_at gl (dd :: nil) /\ gl_cone gl mass Rad H dd dd = Ok pts) -> gmade mass (double_cone Rad H) (mkspan (- Rad) Rad (- Rad) Rad (- H) H) n pts).
  { intros n pts (gl & dd & Hd & GR & E). assert (G := GR dd ltac:(cbn; tauto)). unfold gl_cone in E. rewrite is0_no in E by lra. rewrite leg_ok in E by lia. cbn [bind] in E. rewrite first_ok in E by (now rewrite (gr_len _ _ G)). rewrite (first_all _ _ (gr_len _ _ G)) in E. cbn [bind] in E. rewrite is0_no in E by lra. apply list_ok in E. destruct E as (E & _).
    refine (ex_intro _ dd (ex_intro _ dd (ex_intro _ dd (ex_intro _ (gl dd) (ex_intro _ (gl dd) (ex_intro _ (gl dd) (ex_intro _ 1 (ex_intro _ (fun v : vec => let '(x, y, z) := v in rle (x ^ 2 + y ^ 2) ((z / (H / Rad)) ^ 2)) (ex_intro _ _ (ex_intro _ _ (ex_intro _ _ (conj Hd (conj Hd (conj Hd (conj G (conj G (conj G _))))))))))))))))).
    split; [lra|]. fields. split; [|split; [|split; [|split; [|exact E]]]]; try (intros s; cbv beta; field).
    intros [[x y] z]. unfold in_span, double_cone. fields. intros (A1 & A2 & A3). rewrite rle_iff, Rabs_iff. replace (z / (H / Rad)) with (Rad * z / H) by (field; lra). tauto. }
  assert (IN : forall x y z, double_cone Rad H (x, y, z) -> - H <= z <= H /\ x ^ 2 + y ^ 2 <= Rad ^ 2).
  { intros x y z V. apply ES in V. destruct V as (Z & Q). split; [exact Z|]. assert (A := Hrr z Z). apply full_sector in Q; [|lra]. apply Rle_trans with (rho z ^ 2); [lra|apply pow_incr; lra]. }
  split.
  - apply (tends_sub _ _ _ _ MD). apply (gmade_tends _ _ _ (two_cones Rad H) mass r C'); fields; try assumption; try lra.
    + intros g G. exact (polar_zr (- H) H 0 rho PI Uc g G).
    + intros [[x y] z] V. apply IN in V. destruct V as (Z & Q). apply vnorm_le; [exact H0|]. assert (z ^ 2 <= H ^ 2); [nra|lra].
    + intros [[x y] z] V. apply IN in V. destruct V as (Z & Q). unfold in_span. fields. assert (A := pow2_ge_0 x). assert (B := pow2_ge_0 y). split; [|split; [|exact Z]]; split; nra.
  - intros n. destruct (dec_bool (double_cone Rad H)) as (s & Hs').
    { intros [[x y] z]. unfold double_cone. destruct (Rle_dec (Rabs z) H), (Rle_dec (x ^ 2 + y ^ 2) ((Rad * z / H) ^ 2)); ((left; now split) || (right; tauto)). }
    destruct (gcounts_some _ _ _ s Hs' C' PV) as (N & HN & Q). set (k := (n + N + 1)%nat). destruct (C41_rules_exist (k :: nil)) as (gl & G2). assert (G := G2 k ltac:(cbn; tauto)).
    destruct (C41_cone gl mass Rad H k k G2 HR HH ltac:(unfold k; lia) ltac:(lia)) as [(pts & E & _)|(_ & NO)]; [exists pts, gl, k; split; [unfold k; lia|split; [exact G2|exact E]]|].
    exfalso. rewrite (first_all _ _ (gr_len _ _ G)) in NO. destruct (Q k k k (gl k) (gl k) (gl k)) as (v & w & V1 & V2); try assumption; try (unfold k; lia). exact (NO v w V1 V2).
Qed.
