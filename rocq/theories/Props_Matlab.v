(* C66, C67: the Octave code of /repo/matlab-src and the Python code agree on forces, torques and translations;
   rotations have the opposite sense; computeMoments mirrors the body *)
From Verif Require Import GlibSpec GlibProofs GlibProofs2 Props_Glib MomentSpec Pg2Multi Pg2MultiProofs Props_Moments Props_Cyl GlibShapes GlibShapesProofs Solid.
From Verif Require Import Matlab Cplx.
Lemma vec3 (a b c a2 b2 c2 : R) : a = a2 -> b = b2 -> c = c2 -> (a, b, c) = (a2, b2, c2) :> vec.
Proof. now intros -> -> ->. Qed.
Open Scope R_scope.

Lemma fold_vadd l : forall a, fold_left vadd l a = vadd a (vsum l).
Proof.
  induction l as [|v l IH]; intros a; cbn [fold_left vsum fold_right].
  - destruct a as [[x y] z]. unfold v0. cbn. apply vec3; ring.
  - rewrite IH. change (fold_right vadd v0 l) with (vsum l). destruct a as [[x y] z], v as [[x' y'] z'], (vsum l) as [[a b] c]. cbn. apply vec3; ring.
Qed.
Lemma o_gmmr2 p l : o_Gmmr2Array p l = gmmr2_array p (Rows l).
Proof.
  unfold o_Gmmr2Array, gmmr2_array. cbv zeta. set (rv := map (fun p0 => vsub (pp p0) (pp p)) l).
  match goal with |- context [map ?f rv] => lazymatch f with vnorm => fail | _ => rewrite (map_ext f vnorm) by (intros [[x y] z]; cbn; f_equal; ring) end end.
  match goal with |- (if ?b then _ else _) = (if ?c then _ else _) => change b with c; destruct c; [reflexivity|] end. change o_G with BIG_G. rewrite fold_vadd. f_equal.
  match goal with |- vadd v0 ?u = ?w => change u with w; set (t := w) end. destruct t as [[a b] c]. unfold v0. cbn. apply vec3; ring.
Qed.
Lemma o_loop b l : forall acc, fold_left (fun acc p => do a <- acc; do iforce <- o_Gmmr2Array p b; let itorque := vcross (pp p) iforce in Ok (vadd (fst a) iforce, vadd (snd a) itorque)) l (Ok acc)
  = loop_force (fun p => gmmr2_array p (Rows b)) l acc.
Proof.
  assert (E : forall l e, fold_left (fun acc p => do a <- acc; do iforce <- o_Gmmr2Array p b; let itorque := vcross (pp p) iforce in Ok (vadd (fst a) iforce, vadd (snd a) itorque)) l (@Err (vec * vec) e) = Err e)
    by (induction l0 as [|p l0 IH]; intros e; [reflexivity|exact (IH e)]).
  induction l as [|p l IH]; intros acc; [reflexivity|]. cbn [fold_left bind loop_force]. rewrite o_gmmr2. destruct (gmmr2_array p (Rows b)) as [f|e]; cbn [bind]; [apply IH|apply E].
Qed.
(* ---- C66 ---- *)
Theorem C66_pointMatrixGravity : forall a b, o_pointMatrixGravity a b = point_matrix_gravity (Rows a) (Rows b).
Proof. intros. apply o_loop. Qed.
Theorem C66_translatePMArray : forall a t, Rows (o_translatePMArray a t) = translate_point_array (Rows a) t.
Proof. reflexivity. Qed.
(* the same angle turns the other way than newt.glib.rotate_point_array *)
Lemma o_matrix_rod u t : vdot u u = 1 -> o_matrix t u = rodrigues u (- t).
Proof.
  destruct u as [[x y] z]. cbn [vdot]. intros H. unfold o_matrix, rodrigues, madd, mscal, mmul, mtr, mid, mvec, vdot, vadd, vscal. rewrite sin_neg.
  assert (H2 : 2 * sin (- t / 2) ^ 2 = 1 - cos t).
  { replace (- t / 2) with (- (t / 2)) by field. rewrite sin_neg. replace t with (2 * (t / 2)) at 2 by field. rewrite cos_2a_sin. ring. }
  rewrite H2. set (c := cos t). set (s := sin t). clearbody c s.
  unfold vdot in H. refine (f_equal2 pair (f_equal2 pair _ _) _); apply vec3;
  first [ring | match goal with |- ?l = ?r => replace l with (r + (1 - c) * (x * x + y * y + z * z - 1)) by ring; rewrite H; ring end].
Qed.
Theorem C66_rotatePMArray : forall a angle n, n <> v0 ->
  exists l, o_rotatePMArray a angle n = Ok l /\ rotate_point_array (Rows a) (- angle) n = Ok (Rows l).
Proof.
  intros a t n Hn. destruct a as [|p a]; [eexists; split; [|reflexivity]; now destruct n as [[x y] z]|].
  unfold o_rotatePMArray, rotate_point_array, rot_matrix. destruct n as [[x y] z]. cbv zeta. set (N := sqrt (vdot (x, y, z) (x, y, z))).
  assert (HN : N <> 0).
  { unfold N, vdot. intros E. assert (P1 := Rle_0_sqr x). assert (P2 := Rle_0_sqr y). assert (P3 := Rle_0_sqr z). unfold Rsqr in *. apply sqrt_eq_0 in E; [|lra]. assert (K : forall u, u * u = 0 -> u = 0) by (intros u Hu; destruct (Rmult_integral u u Hu); assumption).
    apply Hn. unfold v0. apply vec3; apply K; nra. }
  rewrite is0_no by exact HN. cbn [bind]. eexists. split; [reflexivity|]. do 2 f_equal.
  replace (vscal (/ N) (x, y, z)) with ((x / N, y / N, z / N) : vec) by (cbn; apply vec3; unfold Rdiv; ring).
  rewrite <- o_matrix_rod; [reflexivity|]. unfold vdot. assert (HN2 : N * N = x * x + y * y + z * z) by (unfold N, vdot; apply sqrt_sqrt; nra).
  replace (x / N * (x / N) + y / N * (y / N) + z / N * (z / N)) with ((x * x + y * y + z * z) / (N * N)) by (field; exact HN). rewrite <- HN2. field. exact HN.
Qed.
Theorem C66_zero_axis : forall p a angle, o_rotatePMArray (p :: a) angle v0 = Err NotFinite /\ o_rotatePMArray nil angle v0 = Ok nil.
Proof. intros. split; [|reflexivity]. unfold o_rotatePMArray, v0, vdot. cbv zeta. rewrite is0_yes; [reflexivity|]. replace (0 * 0 + 0 * 0 + 0 * 0) with 0 by ring. apply sqrt_0. Qed.
(* the case of its own test: a quarter turn about z takes the x axis to minus the y axis *)
Theorem C66_quarter_turn : o_rotatePMArray (mkpt 1 (1, 0, 0) :: nil) (PI / 2) (0, 0, 1) = Ok (mkpt 1 (0, -1, 0) :: nil).
Proof.
  unfold o_rotatePMArray, vdot. cbv zeta. replace (0 * 0 + 0 * 0 + 1 * 1) with 1 by ring. rewrite sqrt_1, is0_no by lra. cbn [map pm pp].
  unfold o_matrix, mvec, vdot. rewrite cos_PI2, sin_PI2. do 3 f_equal. apply vec3; lra.
Qed.
(* hence forces and torques after the same Octave calls are those of Python with the angle negated *)
Theorem C66_turned_attractor : forall a b angle n t l, n <> v0 -> o_rotatePMArray b angle n = Ok l ->
  exists l', rotate_point_array (Rows b) (- angle) n = Ok (Rows l') /\
  o_pointMatrixGravity a (o_translatePMArray l t) = point_matrix_gravity (Rows a) (translate_point_array (Rows l') t).
Proof.
  intros a b t n v l Hn E. destruct (C66_rotatePMArray b t n Hn) as (l' & E' & R). rewrite E in E'. injection E' as <-. exists l. split; [exact R|].
  rewrite C66_pointMatrixGravity. reflexivity.
Qed.
Print Assumptions C66_turned_attractor.

(* the exact torque between two dumbbells quoted in the tests of pointMatrixGravity.m, for all sizes and angles *)
Theorem C66_dumbbell_torque : forall m M d D a Q, 0 < D ->
  0 < 1 - 2 * d / D * cos a + (d / D) ^ 2 -> 0 < 1 + 2 * d / D * cos a + (d / D) ^ 2 ->
  o_rotatePMArray (mkpt M (D, 0, 0) :: mkpt M (- D, 0, 0) :: nil) a (0, 1, 0) = Ok Q ->
  o_pointMatrixGravity (mkpt m (d, 0, 0) :: mkpt m (- d, 0, 0) :: nil) Q
  = Ok ((0, 0, 0), (0, 2 * o_G * M * m * d / D ^ 2 * - sin a *
      (/ sqrt (1 - 2 * d / D * cos a + (d / D) ^ 2) ^ 3 - / sqrt (1 + 2 * d / D * cos a + (d / D) ^ 2) ^ 3), 0)).
Proof.
  intros m M d D a Q HD Hm Hp E.
  assert (EQ : Q = mkpt M (D * cos a, 0, D * sin a) :: mkpt M (- (D * cos a), 0, - (D * sin a)) :: nil).
  { revert E. unfold o_rotatePMArray, vdot. cbv zeta. replace (0 * 0 + 1 * 1 + 0 * 0) with 1 by ring. rewrite sqrt_1, is0_no by lra. intros E. injection E as <-.
    cbn [map pm pp]. unfold o_matrix, mvec, vdot. refine (f_equal2 cons (f_equal (mkpt M) (vec3 _ _ _ _ _ _ _ _ _)) (f_equal2 cons (f_equal (mkpt M) (vec3 _ _ _ _ _ _ _ _ _)) eq_refl)); field. }
  subst Q. clear E.
  set (u := sqrt (1 - 2 * d / D * cos a + (d / D) ^ 2)). set (v := sqrt (1 + 2 * d / D * cos a + (d / D) ^ 2)).
  assert (Hu : 0 < u) by now apply sqrt_lt_R0. assert (Hv : 0 < v) by now apply sqrt_lt_R0.
  assert (CS : sin a * sin a + cos a * cos a = 1) by (assert (X := sin2_cos2 a); unfold Rsqr in X; lra).
  assert (Ru : forall s t, (s = D * cos a - d \/ s = - (D * cos a) - - d) -> t = D * sin a \/ t = - (D * sin a) -> sqrt (s * s + 0 * 0 + t * t) = D * u).
  { intros s t Hs Ht. apply sqrt_lem_1; [nra|nra|]. replace (D * u * (D * u)) with (D * D * (u * u)) by ring. replace (u * u) with (1 - 2 * d / D * cos a + (d / D) ^ 2) by (symmetry; apply sqrt_sqrt; lra). symmetry.
    transitivity (D * D * (sin a * sin a + cos a * cos a) - 2 * d * D * cos a + d * d); [destruct Hs as [-> | ->], Ht as [-> | ->]; ring|]. rewrite CS. field. lra. }
  assert (Rv : forall s t, (s = D * cos a - - d \/ s = - (D * cos a) - d) -> t = D * sin a \/ t = - (D * sin a) -> sqrt (s * s + 0 * 0 + t * t) = D * v).
  { intros s t Hs Ht. apply sqrt_lem_1; [nra|nra|]. replace (D * v * (D * v)) with (D * D * (v * v)) by ring. replace (v * v) with (1 + 2 * d / D * cos a + (d / D) ^ 2) by (symmetry; apply sqrt_sqrt; lra). symmetry.
    transitivity (D * D * (sin a * sin a + cos a * cos a) + 2 * d * D * cos a + d * d); [destruct Hs as [-> | ->], Ht as [-> | ->]; ring|]. rewrite CS. field. lra. }
  unfold o_pointMatrixGravity, o_Gmmr2Array. cbn [fold_left map pp pm bind vsub combine fst snd].
  unfold vsub. rewrite !Rminus_0_r. rewrite (Ru (D * cos a - d) (D * sin a)), (Rv (- (D * cos a) - d) (- (D * sin a))), (Rv (D * cos a - - d) (D * sin a)), (Ru (- (D * cos a) - - d) (- (D * sin a))) by tauto.
  cbn [existsb]. rewrite !is0_no by (apply Rgt_not_eq, Rmult_lt_0_compat; assumption). cbn [orb bind fst snd fold_left].
  unfold v0, vadd, vscal, vcross. do 2 f_equal; apply vec3; field; lra.
Qed.
