(* C03, numerically: the force between two point masses, with the value of G and no constant of the model in the statement. *)
From Verif Require Import GlibProofs2 GlibProofs GlibSpec.

Open Scope R_scope.

Lemma G_value : BIG_G = 6.67428 / 100000000000.
Proof. unfold BIG_G. cbn [pow]. lra. Qed.
Lemma dist_pos p s : pp p <> pp s -> 0 < GlibProofs.dist p s.
Proof.
  intros H. assert (N := dist_neq0 p s). assert (0 <= GlibProofs.dist p s); [|assert (GlibProofs.dist p s <> 0) by (apply N; congruence); lra].
  unfold GlibProofs.dist. destruct (vsub (pp s) (pp p)) as [[a b] c]. unfold vnorm. apply sqrt_pos.
Qed.
Theorem C03_two_points : forall m1 x1 y1 z1 m2 x2 y2 z2, (x1, y1, z1) <> (x2, y2, z2) ->
  let r := sqrt ((x2 - x1) ^ 2 + (y2 - y1) ^ 2 + (z2 - z1) ^ 2) in
  let k := 6.67428 / 100000000000 * m1 * m2 / r ^ 3 in
  0 < r /\
  point_matrix_gravity (Rows (mkpt m1 (x1, y1, z1) :: nil)) (Rows (mkpt m2 (x2, y2, z2) :: nil)) =
    Ok ((k * (x2 - x1), k * (y2 - y1), k * (z2 - z1)),
        (k * (y1 * z2 - z1 * y2), k * (z1 * x2 - x1 * z2), k * (x1 * y2 - y1 * x2))).
Proof.
  intros m1 x1 y1 z1 m2 x2 y2 z2 H r k. set (p := mkpt m1 (x1, y1, z1)). set (s := mkpt m2 (x2, y2, z2)).
  assert (D : 0 < GlibProofs.dist p s) by (apply dist_pos; exact H). change (GlibProofs.dist p s) with r in D. split; [exact D|].
  rewrite gravity_spec. cbn [rows]. rewrite (proj2 (coincide_false _ _)).
  2:{ intros a b [<-|[]] [<-|[]] E. now apply H. }
  f_equal. unfold totF, totT, vS, pf, wG. cbn [map vsum fold_right]. change (GlibProofs.dist p s) with r.
  cbn [pm pp p s]. unfold vsub, vscal, vadd, vcross, v0.
  assert (K : BIG_G * m1 * m2 / r ^ 3 = k) by (rewrite G_value; reflexivity). rewrite K. clearbody k.
  apply f_equal2; apply f_equal2; try apply f_equal2; ring.
Qed.
(* the attraction: inverse square of the distance, towards the source *)
Theorem C03_inverse_square : forall m1 m2 u v, 0 < m1 -> 0 < m2 -> u <> v ->
  exists F T, point_matrix_gravity (Row (mkpt m1 u)) (Row (mkpt m2 v)) = Ok (F, T) /\
    vnorm F = 6.67428 / 100000000000 * m1 * m2 / vnorm (vsub v u) ^ 2 /\ vcross F (vsub v u) = (0, 0, 0) /\ 0 < vdot F (vsub v u) /\ T = vcross u F.
Proof.
  intros m1 m2 [[x1 y1] z1] [[x2 y2] z2] H1 H2 H. destruct (C03_two_points m1 x1 y1 z1 m2 x2 y2 z2 H) as [D E]. cbv zeta in *.
  change (point_matrix_gravity (Row (mkpt m1 (x1, y1, z1))) (Row (mkpt m2 (x2, y2, z2)))) with (point_matrix_gravity (Row (mkpt m1 (x1, y1, z1))) (Row (mkpt m2 (x2, y2, z2)))).
  rewrite gravity_spec in *. cbn [rows] in *. rewrite E. eexists. eexists. split; [reflexivity|]. unfold vsub, vnorm in *.
  set (r := sqrt _) in *. assert (Q : (x2 - x1) ^ 2 + (y2 - y1) ^ 2 + (z2 - z1) ^ 2 = r * r).
  { unfold r. rewrite sqrt_sqrt; [reflexivity|]. assert (A := pow2_ge_0 (x2 - x1)). assert (B := pow2_ge_0 (y2 - y1)). assert (C := pow2_ge_0 (z2 - z1)). lra. }
  clearbody r. set (k := 6.67428 / 100000000000 * m1 * m2 / r ^ 3).
  assert (Pk : 0 < k). { unfold k. apply Rdiv_lt_0_compat; [|now apply pow_lt]. apply Rmult_lt_0_compat; [|exact H2]. apply Rmult_lt_0_compat; [lra|exact H1]. }
  split; [|split; [|split]].
  - replace ((k * (x2 - x1)) ^ 2 + (k * (y2 - y1)) ^ 2 + (k * (z2 - z1)) ^ 2) with ((k * r) ^ 2) by (transitivity (k ^ 2 * (r * r)); [ring|rewrite <- Q; ring]).
    rewrite sqrt_pow2 by (apply Rlt_le, Rmult_lt_0_compat; assumption). unfold k. field. lra.
  - unfold vcross. apply f_equal2; [apply f_equal2|]; ring.
  - unfold vdot. replace (k * (x2 - x1) * (x2 - x1) + k * (y2 - y1) * (y2 - y1) + k * (z2 - z1) * (z2 - z1)) with (k * (r * r)) by (rewrite <- Q; ring).
    apply Rmult_lt_0_compat; [exact Pk|now apply Rmult_lt_0_compat].
  - unfold vcross. apply f_equal2; [apply f_equal2|]; ring.
Qed.
(* and the extra force of yukawa_array: alpha * (1 + r/lambda) exp(-r/lambda) times it *)
Theorem C03_yukawa_factor : forall m1 m2 u v alpha lmbd, lmbd <> 0 -> u <> v ->
  exists F T, point_matrix_gravity (Row (mkpt m1 u)) (Row (mkpt m2 v)) = Ok (F, T) /\
    let r := vnorm (vsub v u) in let f := alpha * (1 + r / lmbd) * exp (- r / lmbd) in
    point_matrix_yukawa (Row (mkpt m1 u)) (Row (mkpt m2 v)) alpha lmbd = Ok (vscal f F, vscal f T).
Proof.
  intros m1 m2 u v alpha lmbd Hl H. set (p := mkpt m1 u). set (s := mkpt m2 v). assert (D := dist_pos p s H).
  rewrite gravity_spec. cbn [rows]. rewrite (proj2 (coincide_false _ _)). 2:{ intros a b [<-|[]] [<-|[]] E. now apply H. }
  eexists. eexists. split; [reflexivity|]. cbv zeta. rewrite yukawa_spec. cbn [rows].
  destruct (coincideY lmbd (p :: nil) (s :: nil)) eqn:E.
  { exfalso. unfold coincideY in E. cbn [existsb] in E. rewrite !Bool.orb_false_r in E. apply Bool.orb_true_iff in E. unfold is0 in E. destruct E as [E|E]; [destruct (Req_EM_T (GlibProofs.dist p s) 0) as [h|h]; [lra|discriminate]|destruct (Req_EM_T lmbd 0) as [h|h]; [lra|discriminate]]. }
  f_equal. unfold totF, totT, vS, pf, wG, wY, yuk_weight. cbn [map vsum fold_right]. change (vnorm (vsub v u)) with (GlibProofs.dist p s). cbn [pm pp p s].
  set (r := GlibProofs.dist p s) in *. clearbody r. destruct u as [[x1 y1] z1], v as [[x2 y2] z2]. unfold vsub, vscal, vadd, vcross, v0. set (e := exp _). clearbody e.
  apply f_equal2; apply f_equal2; try apply f_equal2; field; split; lra.
Qed.
Example C03_unit_masses : exists F T, point_matrix_gravity (Row (mkpt 1 (0, 0, 0))) (Row (mkpt 1 (1, 0, 0))) = Ok (F, T) /\ vnorm F = 6.67428 / 100000000000.
Proof.
  destruct (C03_inverse_square 1 1 (0, 0, 0) (1, 0, 0) ltac:(lra) ltac:(lra)) as (F & T & E & N & _); [intros H; injection H; intros; lra|].
  exists F, T. split; [exact E|]. rewrite N. unfold vsub, vnorm. replace ((1 - 0) ^ 2 + (0 - 0) ^ 2 + (0 - 0) ^ 2) with 1 by ring. rewrite sqrt_1. field.
Qed.
Print Assumptions C03_two_points.
Print Assumptions C03_inverse_square.
Print Assumptions C03_yukawa_factor.
(* C06: the remaining coordinate axis *)
Theorem C06_x_axis : forall m x y z theta,
  rotate_point_array (Row (mkpt m (x, y, z))) theta (1, 0, 0)
    = Ok (Row (mkpt m (x, cos theta * y - sin theta * z, sin theta * y + cos theta * z))).
Proof.
  intros. rewrite rotate_array_spec by (intros E; injection E; lra). cbn [pm pp].
  replace (axis_rot (1, 0, 0) theta (x, y, z)) with (x, cos theta * y - sin theta * z, sin theta * y + cos theta * z); [reflexivity|].
  unfold axis_rot. rewrite mvec_rodrigues, half_angle.
  replace (sqrt (vdot (1, 0, 0) (1, 0, 0))) with 1 by (unfold vdot; replace (1 * 1 + 0 * 0 + 0 * 0) with 1 by ring; now rewrite sqrt_1).
  unfold rodk, vadd, vscal, vcross. apply f_equal2; [apply f_equal2|]; field.
Qed.
Print Assumptions C06_x_axis.
