(* Rotations of point arrays and the gradient theorems. *)
From Verif Require Export GlibSpec GlibProofs.
From Coq Require Import Nsatz Psatz.
Open Scope R_scope.

Definition rodk (u v : vec) (s k : R) : vec :=
  vadd (vadd v (vscal s (vcross u v))) (vscal k (vcross u (vcross u v))).
Lemma mvec_rodrigues u theta v : mvec (rodrigues u theta) v = rodk u v (sin theta) (2 * sin (theta / 2) ^ 2).
Proof.
  destruct u as [[u0 u1] u2], v as [[v0 v1] v2].
  unfold rodrigues, rodk, mvec, madd, mscal, mmul, mtr, mid, mvec, vdot, vadd, vscal, vcross.
  vsplit; ring.
Qed.
Lemma half_angle theta : 2 * sin (theta / 2) ^ 2 = 1 - cos theta.
Proof.
  replace (cos theta) with (cos (2 * (theta / 2))) by (f_equal; field).
  rewrite cos_2a_sin. ring.
Qed.
Lemma sin2cos2 theta : sin theta * sin theta = 1 - cos theta * cos theta.
Proof. assert (H := sin2_cos2 theta). unfold Rsqr in H. lra. Qed.

Lemma rodk_cross u a b s k : vdot u u = 1 -> s * s = 2 * k - k * k ->
  rodk u (vcross a b) s k = vcross (rodk u a s k) (rodk u b s k).
Proof.
  destruct u as [[u0 u1] u2], a as [[a0 a1] a2], b as [[b0 b1] b2].
  unfold rodk, vdot, vadd, vscal, vcross. intros H1 H2. vsplit; nsatz.
Qed.
Lemma rodk_dot u a b s k : vdot u u = 1 -> s * s = 2 * k - k * k ->
  vdot (rodk u a s k) (rodk u b s k) = vdot a b.
Proof.
  destruct u as [[u0 u1] u2], a as [[a0 a1] a2], b as [[b0 b1] b2].
  unfold rodk, vdot, vadd, vscal, vcross. intros H1 H2. nsatz.
Qed.
Lemma rodk_add_ang u v s k s' k' : vdot u u = 1 ->
  rodk u (rodk u v s k) s' k' = rodk u v (s * (1 - k') + (1 - k) * s') (1 - ((1 - k) * (1 - k') - s * s')).
Proof.
  destruct u as [[u0 u1] u2], v as [[v0 v1] v2].
  unfold rodk, vdot, vadd, vscal, vcross. intros H1. vsplit; nsatz.
Qed.
Lemma rodk_perp u v s k : vdot u u = 1 -> vdot u v = 0 ->
  rodk u v s k = vadd (vscal (1 - k) v) (vscal s (vcross u v)).
Proof.
  destruct u as [[u0 u1] u2], v as [[v0 v1] v2].
  unfold rodk, vdot, vadd, vscal, vcross. intros H1 H2. vsplit; nsatz.
Qed.
Lemma rodk_axis u c s k : rodk u (vscal c u) s k = vscal c u.
Proof. destruct u as [[u0 u1] u2]. unfold rodk, vadd, vscal, vcross. vsplit; ring. Qed.

Lemma vdot_norm n : vnorm n = sqrt (vdot n n).
Proof. destruct n as [[a b] c]. unfold vnorm, vdot. f_equal. ring. Qed.
Lemma vdot_pos n : n <> v0 -> 0 < vdot n n.
Proof.
  intros H. destruct n as [[a b] c]. unfold vdot.
  destruct (Rlt_dec 0 (a * a + b * b + c * c)) as [|Hn]; [assumption|]. exfalso. apply H.
  assert (Ha := Rle_0_sqr a). assert (Hb := Rle_0_sqr b). assert (Hc := Rle_0_sqr c). unfold Rsqr in *.
  unfold v0. vsplit; apply Rsqr_0_uniq; unfold Rsqr; lra.
Qed.
Lemma vdot_sqrt_nz n : n <> v0 -> is0 (sqrt (vdot n n)) = false.
Proof. intros H. apply is0_false. apply Rgt_not_eq. apply sqrt_lt_R0. now apply vdot_pos. Qed.
Lemma unit_norm n : n <> v0 -> vdot (vscal (/ sqrt (vdot n n)) n) (vscal (/ sqrt (vdot n n)) n) = 1.
Proof.
  intros H. assert (Hp := vdot_pos n H). assert (Hs := sqrt_lt_R0 _ Hp).
  assert (Hq := sqrt_sqrt (vdot n n) (Rlt_le _ _ Hp)). revert Hs Hq. generalize (sqrt (vdot n n)).
  intros r Hs Hq. destruct n as [[a b] c]. unfold vdot, vscal in *.
  replace (/ r * a * (/ r * a) + / r * b * (/ r * b) + / r * c * (/ r * c))
    with ((a * a + b * b + c * c) * / (r * r)) by (field; lra).
  rewrite <- Hq. field. lra.
Qed.

Definition axis_rot (n : vec) (theta : R) (v : vec) : vec :=
  mvec (rodrigues (vscal (/ sqrt (vdot n n)) n) theta) v.
Lemma rot_matrix_ok n theta : n <> v0 -> rot_matrix theta n = Ok (rodrigues (vscal (/ sqrt (vdot n n)) n) theta).
Proof. intros H. unfold rot_matrix. now rewrite vdot_sqrt_nz. Qed.
Lemma rsk theta : sin theta * sin theta = 2 * (2 * sin (theta / 2) ^ 2) - (2 * sin (theta / 2) ^ 2) * (2 * sin (theta / 2) ^ 2).
Proof. rewrite half_angle, sin2cos2. ring. Qed.

Lemma axis_rot_is_rotation n theta : n <> v0 -> is_rotation n theta (axis_rot n theta).
Proof.
  intros Hn. assert (Hu := unit_norm n Hn).
  assert (Hs : 0 < sqrt (vdot n n)) by (apply sqrt_lt_R0, vdot_pos, Hn).
  unfold axis_rot. constructor.
  - intros a b. rewrite !mvec_rodrigues. generalize (vscal (/ sqrt (vdot n n)) n). unfold rodk. vring.
  - intros c a. rewrite !mvec_rodrigues. generalize (vscal (/ sqrt (vdot n n)) n). unfold rodk. vring.
  - intros a b. rewrite !mvec_rodrigues. apply rodk_dot; [exact Hu|apply rsk].
  - intros a b. rewrite !mvec_rodrigues. apply rodk_cross; [exact Hu|apply rsk].
  - rewrite mvec_rodrigues. set (u := vscal (/ sqrt (vdot n n)) n).
    assert (E : n = vscal (sqrt (vdot n n)) u).
    { unfold u. destruct n as [[a b] c]. unfold vscal at 1 2. vsplit; field; lra. }
    rewrite E at 1. rewrite rodk_axis. now rewrite <- E.
  - intros v Hv. rewrite mvec_rodrigues, rodk_perp.
    + rewrite half_angle, vdot_norm. replace (1 - (1 - cos theta)) with (cos theta) by ring. f_equal.
      generalize (sqrt (vdot n n)) Hs. intros r Hr. destruct n as [[a b] c], v as [[x y] z].
      unfold vscal, vcross. vsplit; field; lra.
    + exact Hu.
    + destruct n as [[a b] c], v as [[x y] z]. unfold vdot, vscal in *.
      set (r := sqrt _). replace (/ r * a * x + / r * b * y + / r * c * z) with (/ r * (a * x + b * y + c * z)) by ring.
      rewrite Hv. ring.
Qed.
Lemma rotate_array_spec a theta n : n <> v0 ->
  rotate_point_array a theta n =
  Ok (match a with Row p => Row (mkpt (pm p) (axis_rot n theta (pp p)))
                 | Rows l => Rows (map (fun p => mkpt (pm p) (axis_rot n theta (pp p))) l) end).
Proof.
  intros H. destruct a as [p|l]; unfold rotate_point_array.
  - now rewrite rot_matrix_ok.
  - destruct l; [reflexivity|]. now rewrite rot_matrix_ok.
Qed.
Lemma rotate_array_rotation theta n : n <> v0 ->
  exists f, is_rotation n theta f /\
    (forall l, rotate_point_array (Rows l) theta n = Ok (Rows (map (fun p => mkpt (pm p) (f (pp p))) l))) /\
    (forall p, rotate_point_array (Row p) theta n = Ok (Row (mkpt (pm p) (f (pp p))))).
Proof.
  intros H. exists (axis_rot n theta). split; [now apply axis_rot_is_rotation|].
  split; intros; now rewrite rotate_array_spec.
Qed.
(* a rotation is determined by its axis and angle *)
Lemma is_rotation_unique n theta f g : n <> v0 -> is_rotation n theta f -> is_rotation n theta g -> forall v, f v = g v.
Proof.
  intros Hn Hf Hg v. assert (Hp := vdot_pos n Hn).
  set (c := vdot n v / vdot n n). set (w := vsub v (vscal c n)).
  assert (E : v = vadd (vscal c n) w).
  { unfold w. generalize (vscal c n). intros u. destruct v as [[? ?] ?], u as [[? ?] ?]. unfold vadd, vsub. vsplit; ring. }
  assert (Hw : vdot n w = 0).
  { unfold w, c. destruct n as [[a b] d], v as [[x y] z]. unfold vdot, vsub, vscal in *. field. lra. }
  rewrite E, (rot_add _ _ _ Hf), (rot_add _ _ _ Hg), (rot_scal _ _ _ Hf), (rot_scal _ _ _ Hg),
   (rot_axis _ _ _ Hf), (rot_axis _ _ _ Hg), (rot_angle _ _ _ Hf w Hw), (rot_angle _ _ _ Hg w Hw). reflexivity.
Qed.
Lemma axis_rot_compose n s t v : n <> v0 -> axis_rot n t (axis_rot n s v) = axis_rot n (s + t) v.
Proof.
  intros Hn. unfold axis_rot. rewrite !mvec_rodrigues, rodk_add_ang by (now apply unit_norm).
  rewrite !half_angle, sin_plus, cos_plus. f_equal; ring.
Qed.
Lemma rotate_compose a s t n : n <> v0 ->
  bind (rotate_point_array a s n) (fun b => rotate_point_array b t n) = rotate_point_array a (s + t) n.
Proof.
  intros Hn. rewrite !rotate_array_spec by assumption. cbn [bind]. rewrite rotate_array_spec by assumption. f_equal.
  destruct a as [p|l]; cbn [pm pp].
  - now rewrite axis_rot_compose.
  - f_equal. rewrite map_map. apply map_ext. intros p. cbn [pm pp]. now rewrite axis_rot_compose.
Qed.
Lemma axis_rot_2PI n v : axis_rot n (2 * PI) v = v.
Proof.
  unfold axis_rot. rewrite mvec_rodrigues, half_angle, sin_2PI, cos_2PI. unfold rodk.
  generalize (vscal (/ sqrt (vdot n n)) n). intros u. destruct u as [[? ?] ?], v as [[? ?] ?]. unfold vadd, vscal, vcross.
  vsplit; ring.
Qed.
Lemma axis_rot_0 n v : axis_rot n 0 v = v.
Proof.
  unfold axis_rot. rewrite mvec_rodrigues, half_angle, sin_0, cos_0. unfold rodk.
  generalize (vscal (/ sqrt (vdot n n)) n). intros u. destruct u as [[? ?] ?], v as [[? ?] ?]. unfold vadd, vscal, vcross.
  vsplit; ring.
Qed.
Lemma rotate_2PI a n : n <> v0 -> rotate_point_array a (2 * PI) n = Ok a.
Proof.
  intros Hn. rewrite rotate_array_spec by assumption. f_equal. destruct a as [[m p]|l].
  - cbn. now rewrite axis_rot_2PI.
  - f_equal. rewrite <- (map_id l) at 2. apply map_ext. intros [m p]. cbn. now rewrite axis_rot_2PI.
Qed.
Lemma rotate_axis_scale a theta n c : n <> v0 -> 0 < c ->
  rotate_point_array a theta (vscal c n) = rotate_point_array a theta n.
Proof.
  intros Hn Hc. assert (Hn' : vscal c n <> v0).
  { intros E. apply Hn. destruct n as [[x y] z]. unfold vscal, v0 in *. injection E; intros.
    vsplit; nra. }
  rewrite !rotate_array_spec by assumption. f_equal.
  assert (E : vscal (/ sqrt (vdot (vscal c n) (vscal c n))) (vscal c n) = vscal (/ sqrt (vdot n n)) n).
  { replace (vdot (vscal c n) (vscal c n)) with (c ^ 2 * vdot n n)
      by (destruct n as [[x y] z]; unfold vdot, vscal; ring).
    rewrite sqrt_mult_alt by apply pow2_ge_0. rewrite sqrt_pow2 by lra.
    assert (Hs : 0 < sqrt (vdot n n)) by (apply sqrt_lt_R0, vdot_pos, Hn).
    revert Hs; generalize (sqrt (vdot n n)); intros r Hr. destruct n as [[x y] z]. unfold vscal. vsplit; field; lra. }
  unfold axis_rot. now rewrite E.
Qed.
Lemma rotate_zero_axis p l theta : rotate_point_array (Rows (p :: l)) theta v0 = Err NotFinite
  /\ rotate_point_array (Row p) theta v0 = Err NotFinite.
Proof.
  assert (E : rot_matrix theta v0 = Err NotFinite).
  { unfold rot_matrix. assert (H : is0 (sqrt (vdot v0 v0)) = true).
    { apply is0_true. unfold vdot, v0. replace (0 * 0 + 0 * 0 + 0 * 0) with 0 by ring. apply sqrt_0. }
    now rewrite H. }
  split; unfold rotate_point_array; now rewrite E.
Qed.
(* coordinate axes *)
Lemma axis_rot_z theta x y z : axis_rot (0, 0, 1) theta (x, y, z) =
  (cos theta * x - sin theta * y, sin theta * x + cos theta * y, z).
Proof.
  unfold axis_rot. rewrite mvec_rodrigues, half_angle.
  replace (sqrt (vdot (0, 0, 1) (0, 0, 1))) with 1 by (unfold vdot; replace (0 * 0 + 0 * 0 + 1 * 1) with 1 by ring; now rewrite sqrt_1).
  unfold rodk, vadd, vscal, vcross. vsplit; field.
Qed.
Lemma axis_rot_y theta x y z : axis_rot (0, 1, 0) theta (x, y, z) =
  (cos theta * x + sin theta * z, y, - sin theta * x + cos theta * z).
Proof.
  unfold axis_rot. rewrite mvec_rodrigues, half_angle.
  replace (sqrt (vdot (0, 1, 0) (0, 1, 0))) with 1 by (unfold vdot; replace (0 * 0 + 1 * 1 + 0 * 0) with 1 by ring; now rewrite sqrt_1).
  unfold rodk, vadd, vscal, vcross. vsplit; field.
Qed.

(* ---- covariance of forces under rotation --------------------------------- *)
Section RotCov.
  Variables (n : vec) (theta : R) (f : vec -> vec).
  Hypothesis Hf : is_rotation n theta f.
  Definition mv (p : pt) : pt := mkpt (pm p) (f (pp p)).
  Lemma f_sub a b : f (vsub a b) = vsub (f a) (f b).
  Proof.
    assert (E : forall u v, vsub u v = vadd u (vscal (-1) v)) by (clear; vring).
    rewrite (E a b), (rot_add _ _ _ Hf), (rot_scal _ _ _ Hf). now rewrite E.
  Qed.
  Lemma f_0 : f v0 = v0.
  Proof.
    assert (E : forall u, vscal 0 u = v0) by (clear; vring).
    assert (H := rot_scal _ _ _ Hf 0 v0). rewrite !E in H. exact H.
  Qed.
  Lemma f_vS {A} (g : A -> vec) l : vS (fun x => f (g x)) l = f (vS g l).
  Proof. induction l; cbn [vS fold_right]; [now rewrite f_0|]. unfold vS in IHl. now rewrite IHl, (rot_add _ _ _ Hf). Qed.
  Lemma f_norm a : vnorm (f a) = vnorm a.
  Proof. now rewrite !vdot_norm, (rot_dot _ _ _ Hf). Qed.
  Lemma dist_mv p q : dist (mv p) (mv q) = dist p q.
  Proof. unfold dist, mv; cbn [pp]. now rewrite <- f_sub, f_norm. Qed.
  Lemma pf_mv w p q : pf w (mv p) (mv q) = f (pf w p q).
  Proof. unfold pf. rewrite dist_mv. unfold mv; cbn [pm pp]. now rewrite <- f_sub, (rot_scal _ _ _ Hf). Qed.
  Lemma totF_mv w l1 l2 : totF w (map mv l1) (map mv l2) = f (totF w l1 l2).
  Proof.
    unfold totF. rewrite vS_map, <- f_vS. apply vS_ext. intros p _. rewrite vS_map, <- f_vS.
    apply vS_ext. intros q _. apply pf_mv.
  Qed.
  Lemma totT_mv w l1 l2 : totT w (map mv l1) (map mv l2) = f (totT w l1 l2).
  Proof.
    unfold totT. rewrite vS_map, <- f_vS. apply vS_ext. intros p _.
    rewrite vS_map. rewrite (vS_ext _ (fun q => f (pf w p q))) by (intros; apply pf_mv).
    rewrite f_vS. unfold mv at 1; cbn [pp]. now rewrite (rot_cross _ _ _ Hf).
  Qed.
  Lemma mv_inj p q : pp (mv p) = pp (mv q) <-> pp p = pp q.
  Proof.
    split; [|unfold mv; cbn [pp]; now intros ->]. intros H.
    assert (E : dist p q = 0). { rewrite <- dist_mv. unfold dist. rewrite H. 
      assert (E0 : forall u, vsub u u = v0) by (clear; vring). rewrite E0.
      unfold v0, vnorm. replace (0 ^ 2 + 0 ^ 2 + 0 ^ 2) with 0 by ring. apply sqrt_0. }
    unfold dist in E. destruct (pp p) as [[a b] c], (pp q) as [[a' b'] c']. unfold vsub, vnorm in E.
    apply sqrt3_0 in E. vsplit; lra.
  Qed.
End RotCov.

Lemma gravity_rotate a b theta n F T : n <> v0 ->
  point_matrix_gravity a b = Ok (F, T) ->
  exists a' b' f, rotate_point_array a theta n = Ok a' /\ rotate_point_array b theta n = Ok b' /\
    is_rotation n theta f /\ point_matrix_gravity a' b' = Ok (f F, f T).
Proof.
  intros Hn H. rewrite !rotate_array_spec by assumption. eexists _, _, (axis_rot n theta).
  split; [reflexivity|]. split; [reflexivity|]. assert (Hr := axis_rot_is_rotation n theta Hn).
  split; [exact Hr|]. rewrite gravity_spec in *.
  assert (Er : forall a, rows (match a with Row p => Row (mkpt (pm p) (axis_rot n theta (pp p)))
                 | Rows l => Rows (map (fun p => mkpt (pm p) (axis_rot n theta (pp p))) l) end)
               = map (mv (axis_rot n theta)) (rows a)) by (intros [?|?]; reflexivity).
  rewrite !Er, coincide_inj by (apply (mv_inj n theta); exact Hr).
  destruct (coincide (rows a) (rows b)); [discriminate|]. injection H; intros <- <-.
  now rewrite (totF_mv n theta), (totT_mv n theta).
Qed.
Lemma yukawa_rotate a b alpha lmbd theta n F T : n <> v0 -> lmbd <> 0 ->
  point_matrix_yukawa a b alpha lmbd = Ok (F, T) ->
  exists a' b' f, rotate_point_array a theta n = Ok a' /\ rotate_point_array b theta n = Ok b' /\
    is_rotation n theta f /\ point_matrix_yukawa a' b' alpha lmbd = Ok (f F, f T).
Proof.
  intros Hn Hl H. rewrite !rotate_array_spec by assumption. eexists _, _, (axis_rot n theta).
  split; [reflexivity|]. split; [reflexivity|]. assert (Hr := axis_rot_is_rotation n theta Hn).
  split; [exact Hr|]. rewrite yukawa_spec, coincideY_nz in * by assumption.
  assert (Er : forall a, rows (match a with Row p => Row (mkpt (pm p) (axis_rot n theta (pp p)))
                 | Rows l => Rows (map (fun p => mkpt (pm p) (axis_rot n theta (pp p))) l) end)
               = map (mv (axis_rot n theta)) (rows a)) by (intros [?|?]; reflexivity).
  rewrite !Er, coincide_inj by (apply (mv_inj n theta); exact Hr).
  destruct (coincide (rows a) (rows b)); [discriminate|]. injection H; intros <- <-.
  now rewrite (totF_mv n theta), (totT_mv n theta).
Qed.

(* ---- gradients ------------------------------------------------------------ *)
Lemma minus_grad_plus U V x y z f g :
  minus_grad U x y z f -> minus_grad V x y z g ->
  minus_grad (fun a b c => U a b c + V a b c) x y z (vadd f g).
Proof.
  destruct f as [[f1 f2] f3], g as [[g1 g2] g3]. unfold minus_grad, vadd.
  intros (A1 & A2 & A3) (B1 & B2 & B3).
  replace (- (f1 + g1)) with (plus (- f1) (- g1)) by (unfold plus; simpl; ring).
  replace (- (f2 + g2)) with (plus (- f2) (- g2)) by (unfold plus; simpl; ring).
  replace (- (f3 + g3)) with (plus (- f3) (- g3)) by (unfold plus; simpl; ring).
  split; [|split].
  - now apply (is_derive_plus (fun t => U t y z) (fun t => V t y z)).
  - now apply (is_derive_plus (fun t => U x t z) (fun t => V x t z)).
  - now apply (is_derive_plus (fun t => U x y t) (fun t => V x y t)).
Qed.

Lemma sep_expr m X Y Z x y z : sep (mkpt m (X, Y, Z)) x y z = sqrt ((x - X) ^ 2 + (y - Y) ^ 2 + (z - Z) ^ 2).
Proof. reflexivity. Qed.
Lemma der_sqrt_shift a b x : 0 < (x - a) ^ 2 + b -> is_derive (fun t => sqrt ((t - a) ^ 2 + b)) x ((x - a) / sqrt ((x - a) ^ 2 + b)).
Proof.
  intros H. auto_derive.
  - replace ((x + - a) * ((x + - a) * 1) + b) with ((x - a) ^ 2 + b) by ring. exact H.
  - replace ((x + - a) * ((x + - a) * 1) + b) with ((x - a) ^ 2 + b) by ring.
    assert (Hs := sqrt_lt_R0 _ H). revert Hs. generalize (sqrt ((x - a) ^ 2 + b)). intros r Hr. simpl. field. lra.
Qed.
Lemma der_newton a b k x : 0 < (x - a) ^ 2 + b ->
  is_derive (fun t => - (k / sqrt ((t - a) ^ 2 + b))) x (- (k / sqrt ((x - a) ^ 2 + b) ^ 3 * (a - x))).
Proof.
  intros H. assert (Hs := sqrt_lt_R0 _ H).
  evar_last. apply (is_derive_comp (fun u => - (k / u)) (fun t => sqrt ((t - a) ^ 2 + b))).
  - auto_derive; [lra|reflexivity].
  - apply der_sqrt_shift, H.
  - unfold scal; simpl. unfold mult; simpl.
    change ((x - a) * ((x - a) * 1)) with ((x - a) ^ 2). revert Hs. generalize (sqrt ((x - a) ^ 2 + b)).
    intros r Hr. field. lra.
Qed.
Lemma der_yukawa a b k lm x : 0 < (x - a) ^ 2 + b -> lm <> 0 ->
  is_derive (fun t => - (k * exp (- sqrt ((t - a) ^ 2 + b) / lm) / sqrt ((t - a) ^ 2 + b))) x
   (- (k * exp (- sqrt ((x - a) ^ 2 + b) / lm) * (1 / sqrt ((x - a) ^ 2 + b) ^ 3 + 1 / (sqrt ((x - a) ^ 2 + b) ^ 2 * lm)) * (a - x))).
Proof.
  intros H Hl. assert (Hs := sqrt_lt_R0 _ H).
  evar_last. apply (is_derive_comp (fun u => - (k * exp (- u / lm) / u)) (fun t => sqrt ((t - a) ^ 2 + b))).
  - auto_derive; [lra|reflexivity].
  - apply der_sqrt_shift, H.
  - unfold scal; simpl. unfold mult; simpl.
    change ((x - a) * ((x - a) * 1)) with ((x - a) ^ 2). revert Hs. generalize (sqrt ((x - a) ^ 2 + b)).
    intros r Hr. unfold Rdiv. generalize (exp (- r * / lm)). intros E. field. lra.
Qed.
Lemma grad_ext U V x y z f : (forall a b c, U a b c = V a b c) -> minus_grad U x y z f -> minus_grad V x y z f.
Proof.
  destruct f as [[f1 f2] f3]. unfold minus_grad. intros H (A & B & C).
  split; [|split]; [apply (is_derive_ext (fun t => U t y z))|apply (is_derive_ext (fun t => U x t z))|apply (is_derive_ext (fun t => U x y t))];
   auto.
Qed.
Lemma apart_pos X Y Z x y z : (x, y, z) <> (X, Y, Z) -> 0 < (x - X) ^ 2 + (y - Y) ^ 2 + (z - Z) ^ 2.
Proof.
  intros H. destruct (Rlt_dec 0 ((x - X) ^ 2 + (y - Y) ^ 2 + (z - Z) ^ 2)) as [|Hn]; [assumption|]. exfalso. apply H.
  assert (A := pow2_ge_0 (x - X)). assert (B := pow2_ge_0 (y - Y)). assert (C := pow2_ge_0 (z - Z)).
  assert (E : forall u, u ^ 2 = 0 -> u = 0) by (intros; nra).
  vsplit; apply Rminus_diag_uniq, E; lra.
Qed.
Lemma newton_grad1 q m x y z : (x, y, z) <> pp q ->
  minus_grad (fun a b c => - (BIG_G * m * pm q / sep q a b c)) x y z (pf wG (mkpt m (x, y, z)) q).
Proof.
  destruct q as [M [[X Y] Z]]. intros H. apply apart_pos in H.
  unfold pf, wG, dist, minus_grad, sep, vsub, vscal, vnorm. cbn [pm pp].
  replace ((X - x) ^ 2 + (Y - y) ^ 2 + (Z - z) ^ 2) with ((x - X) ^ 2 + (y - Y) ^ 2 + (z - Z) ^ 2) by ring.
  split; [|split].
  - apply (is_derive_ext (fun t => - (BIG_G * m * M / sqrt ((t - X) ^ 2 + ((y - Y) ^ 2 + (z - Z) ^ 2))))).
    { intros t. now replace ((t - X) ^ 2 + ((y - Y) ^ 2 + (z - Z) ^ 2)) with ((t - X) ^ 2 + (y - Y) ^ 2 + (z - Z) ^ 2) by ring. }
    replace ((x - X) ^ 2 + (y - Y) ^ 2 + (z - Z) ^ 2) with ((x - X) ^ 2 + ((y - Y) ^ 2 + (z - Z) ^ 2)) in * by ring.
    now apply der_newton.
  - apply (is_derive_ext (fun t => - (BIG_G * m * M / sqrt ((t - Y) ^ 2 + ((x - X) ^ 2 + (z - Z) ^ 2))))).
    { intros t. now replace ((t - Y) ^ 2 + ((x - X) ^ 2 + (z - Z) ^ 2)) with ((x - X) ^ 2 + (t - Y) ^ 2 + (z - Z) ^ 2) by ring. }
    replace ((x - X) ^ 2 + (y - Y) ^ 2 + (z - Z) ^ 2) with ((y - Y) ^ 2 + ((x - X) ^ 2 + (z - Z) ^ 2)) in * by ring.
    now apply der_newton.
  - apply (is_derive_ext (fun t => - (BIG_G * m * M / sqrt ((t - Z) ^ 2 + ((x - X) ^ 2 + (y - Y) ^ 2))))).
    { intros t. now replace ((t - Z) ^ 2 + ((x - X) ^ 2 + (y - Y) ^ 2)) with ((x - X) ^ 2 + (y - Y) ^ 2 + (t - Z) ^ 2) by ring. }
    replace ((x - X) ^ 2 + (y - Y) ^ 2 + (z - Z) ^ 2) with ((z - Z) ^ 2 + ((x - X) ^ 2 + (y - Y) ^ 2)) in * by ring.
    now apply der_newton.
Qed.
Lemma yukawa_grad1 alpha lm q m x y z : lm <> 0 -> (x, y, z) <> pp q ->
  minus_grad (fun a b c => - (alpha * BIG_G * m * pm q * exp (- sep q a b c / lm) / sep q a b c)) x y z
   (pf (wY alpha lm) (mkpt m (x, y, z)) q).
Proof.
  destruct q as [M [[X Y] Z]]. intros Hl H. apply apart_pos in H.
  unfold pf, wY, yuk_weight, dist, minus_grad, sep, vsub, vscal, vnorm. cbn [pm pp].
  replace ((X - x) ^ 2 + (Y - y) ^ 2 + (Z - z) ^ 2) with ((x - X) ^ 2 + (y - Y) ^ 2 + (z - Z) ^ 2) by ring.
  set (K := alpha * BIG_G * m * M).
  split; [|split].
  - apply (is_derive_ext (fun t => let s := sqrt ((t - X) ^ 2 + ((y - Y) ^ 2 + (z - Z) ^ 2)) in - (K * exp (- s / lm) / s))).
    { intros t. cbv zeta. now replace ((t - X) ^ 2 + ((y - Y) ^ 2 + (z - Z) ^ 2)) with ((t - X) ^ 2 + (y - Y) ^ 2 + (z - Z) ^ 2) by ring. }
    replace ((x - X) ^ 2 + (y - Y) ^ 2 + (z - Z) ^ 2) with ((x - X) ^ 2 + ((y - Y) ^ 2 + (z - Z) ^ 2)) in * by ring.
    now apply der_yukawa.
  - apply (is_derive_ext (fun t => let s := sqrt ((t - Y) ^ 2 + ((x - X) ^ 2 + (z - Z) ^ 2)) in - (K * exp (- s / lm) / s))).
    { intros t. cbv zeta. now replace ((t - Y) ^ 2 + ((x - X) ^ 2 + (z - Z) ^ 2)) with ((x - X) ^ 2 + (t - Y) ^ 2 + (z - Z) ^ 2) by ring. }
    replace ((x - X) ^ 2 + (y - Y) ^ 2 + (z - Z) ^ 2) with ((y - Y) ^ 2 + ((x - X) ^ 2 + (z - Z) ^ 2)) in * by ring.
    now apply der_yukawa.
  - apply (is_derive_ext (fun t => let s := sqrt ((t - Z) ^ 2 + ((x - X) ^ 2 + (y - Y) ^ 2)) in - (K * exp (- s / lm) / s))).
    { intros t. cbv zeta. now replace ((t - Z) ^ 2 + ((x - X) ^ 2 + (y - Y) ^ 2)) with ((x - X) ^ 2 + (y - Y) ^ 2 + (t - Z) ^ 2) by ring. }
    replace ((x - X) ^ 2 + (y - Y) ^ 2 + (z - Z) ^ 2) with ((z - Z) ^ 2 + ((x - X) ^ 2 + (y - Y) ^ 2)) in * by ring.
    now apply der_yukawa.
Qed.
Lemma grad_zero x y z : minus_grad (fun _ _ _ => 0) x y z v0.
Proof. unfold minus_grad, v0. rewrite Ropp_0. split; [|split]; apply (is_derive_const (V := R_NormedModule)). Qed.
Lemma newton_grad srcs m x y z : (forall q, In q srcs -> (x, y, z) <> pp q) ->
  minus_grad (newton_energy srcs m) x y z (vS (fun q => pf wG (mkpt m (x, y, z)) q) srcs).
Proof.
  induction srcs as [|q l IH]; intros H; [apply grad_zero|].
  cbn [vS fold_right]. apply (grad_ext (fun a b c => - (BIG_G * m * pm q / sep q a b c) + newton_energy l m a b c)); [reflexivity|].
  apply minus_grad_plus; [apply newton_grad1, H; now left|]. apply IH. intros; apply H; now right.
Qed.
Lemma yukawa_grad alpha lm srcs m x y z : lm <> 0 -> (forall q, In q srcs -> (x, y, z) <> pp q) ->
  minus_grad (yukawa_energy alpha lm srcs m) x y z (vS (fun q => pf (wY alpha lm) (mkpt m (x, y, z)) q) srcs).
Proof.
  intros Hl. induction srcs as [|q l IH]; intros H; [apply grad_zero|].
  cbn [vS fold_right]. apply (grad_ext (fun a b c => - (alpha * BIG_G * m * pm q * exp (- sep q a b c / lm) / sep q a b c) + yukawa_energy alpha lm l m a b c)); [reflexivity|].
  apply minus_grad_plus; [apply yukawa_grad1; [assumption|]; apply H; now left|]. apply IH. intros; apply H; now right.
Qed.
