(* C01-C07: the theorems about glib.py.  Vocabulary: Glib.v (model), GlibSpec.v (spec). *)
From Verif Require Import GlibProofs2.
From Coq Require Import Permutation.
Open Scope R_scope.

(* two concrete, non-trivial arrays used as witnesses *)
Definition ex_a : parr := Rows (mkpt 2 (1, 0, 0) :: mkpt 3 (0, 1, 0) :: nil).
Definition ex_b : parr := Rows (mkpt 5 (0, 0, 4) :: mkpt 7 (0, 0, -4) :: nil).
Example ex_apart : apart_all (rows ex_a) (rows ex_b).
Proof.
  intros p q [<-|[<-|[]]] [<-|[<-|[]]] H; injection H; intros; lra.
Qed.

(* ---- C01 ---- *)
Theorem C01_third_law_gravity : forall a b, apart_all (rows a) (rows b) ->
  exists F T, point_matrix_gravity a b = Ok (F, T) /\ point_matrix_gravity b a = Ok (vopp F, vopp T).
Proof. exact gravity_third_law. Qed.
Print Assumptions C01_third_law_gravity.
Theorem C01_third_law_yukawa : forall a b alpha lmbd, lmbd <> 0 -> apart_all (rows a) (rows b) ->
  exists F T, point_matrix_yukawa a b alpha lmbd = Ok (F, T)
           /\ point_matrix_yukawa b a alpha lmbd = Ok (vopp F, vopp T).
Proof. exact yukawa_third_law. Qed.
Print Assumptions C01_third_law_yukawa.
Example C01_nonvacuous : exists F T, point_matrix_gravity ex_a ex_b = Ok (F, T).
Proof. destruct (gravity_third_law _ _ ex_apart) as (F & T & H & _). now exists F, T. Qed.

(* ---- C02 ---- *)
Theorem C02_superposition_gravity : forall l l' b,
  point_matrix_gravity (Rows (l ++ l')) b
    = radd (point_matrix_gravity (Rows l) b) (point_matrix_gravity (Rows l') b)
  /\ point_matrix_gravity b (Rows (l ++ l'))
    = radd (point_matrix_gravity b (Rows l)) (point_matrix_gravity b (Rows l')).
Proof. intros. split; [apply gravity_superpose_targets|apply gravity_superpose_sources]. Qed.
Print Assumptions C02_superposition_gravity.
Theorem C02_superposition_yukawa : forall l l' b alpha lmbd, lmbd <> 0 ->
  point_matrix_yukawa (Rows (l ++ l')) b alpha lmbd
    = radd (point_matrix_yukawa (Rows l) b alpha lmbd) (point_matrix_yukawa (Rows l') b alpha lmbd)
  /\ point_matrix_yukawa b (Rows (l ++ l')) alpha lmbd
    = radd (point_matrix_yukawa b (Rows l) alpha lmbd) (point_matrix_yukawa b (Rows l') alpha lmbd).
Proof. intros. split; [now apply yukawa_superpose_targets|now apply yukawa_superpose_sources]. Qed.
Theorem C02_order_independent : forall l1 l1' l2 l2' alpha lmbd, lmbd <> 0 ->
  Permutation l1 l1' -> Permutation l2 l2' ->
  point_matrix_gravity (Rows l1) (Rows l2) = point_matrix_gravity (Rows l1') (Rows l2')
  /\ point_matrix_yukawa (Rows l1) (Rows l2) alpha lmbd = point_matrix_yukawa (Rows l1') (Rows l2') alpha lmbd.
Proof. intros. split; [now apply gravity_perm|now apply yukawa_perm]. Qed.
Theorem C02_one_row : forall a b alpha lmbd,
  point_matrix_gravity a b = point_matrix_gravity (Rows (rows a)) (Rows (rows b))
  /\ point_matrix_yukawa a b alpha lmbd = point_matrix_yukawa (Rows (rows a)) (Rows (rows b)) alpha lmbd.
Proof. intros. split; [apply gravity_rows|apply yukawa_rows2]. Qed.

(* ---- C03 ---- *)
Theorem C03_gravity_is_minus_gradient : forall srcs m x y z,
  (forall q, In q srcs -> (x, y, z) <> pp q) ->
  exists f, gmmr2_array (mkpt m (x, y, z)) (Rows srcs) = Ok f
         /\ minus_grad (newton_energy srcs m) x y z f.
Proof.
  intros srcs m x y z H. exists (vS (pf wG (mkpt m (x, y, z))) srcs). split; [|now apply newton_grad].
  rewrite gmmr2_many. replace (existsb _ srcs) with false; [reflexivity|]. symmetry.
  apply not_true_iff_false. intros E. apply existsb_exists in E. destruct E as (q & Hq & E).
  apply is0_true in E. revert E. apply dist_neq0. exact (H q Hq).
Qed.
Print Assumptions C03_gravity_is_minus_gradient.
Theorem C03_yukawa_is_minus_gradient : forall alpha lmbd srcs m x y z, lmbd <> 0 ->
  (forall q, In q srcs -> (x, y, z) <> pp q) ->
  exists f, yukawa_array (mkpt m (x, y, z)) (Rows srcs) alpha lmbd = Ok f
         /\ minus_grad (yukawa_energy alpha lmbd srcs m) x y z f.
Proof.
  intros alpha lmbd srcs m x y z Hl H. exists (vS (pf (wY alpha lmbd) (mkpt m (x, y, z))) srcs). split; [|now apply yukawa_grad].
  rewrite yukawa_many. replace (existsb _ srcs) with false; [reflexivity|]. symmetry.
  apply not_true_iff_false. intros E. apply existsb_exists in E. destruct E as (q & Hq & E).
  apply is0_false in Hl. rewrite Hl, orb_false_r in E.
  apply is0_true in E. revert E. apply dist_neq0. exact (H q Hq).
Qed.
Print Assumptions C03_yukawa_is_minus_gradient.
(* a 1-D source array gives the same force as the one-row array *)
Theorem C03_one_row : forall p q alpha lmbd,
  gmmr2_array p (Row q) = gmmr2_array p (Rows (q :: nil))
  /\ yukawa_array p (Row q) alpha lmbd = yukawa_array p (Rows (q :: nil)) alpha lmbd.
Proof. intros. split; [apply (gmmr2_rows p (Row q))|apply (yukawa_rows p (Row q))]. Qed.
Example C03_nonvacuous : forall q, In q (rows ex_b) -> (1, 2, 3) <> pp q.
Proof. intros q [<-|[<-|[]]] H; injection H; intros; lra. Qed.

(* ---- C04 ---- *)
Theorem C04_translation : forall a b t alpha lmbd F T F' T', lmbd <> 0 ->
  point_matrix_gravity a b = Ok (F, T) -> point_matrix_yukawa a b alpha lmbd = Ok (F', T') ->
  point_matrix_gravity (translate_point_array a t) (translate_point_array b t) = Ok (F, vadd T (vcross t F))
  /\ point_matrix_yukawa (translate_point_array a t) (translate_point_array b t) alpha lmbd
     = Ok (F', vadd T' (vcross t F')).
Proof. intros. split; [now apply gravity_translate|now apply yukawa_translate]. Qed.
Print Assumptions C04_translation.
Theorem C04_rotation_gravity : forall a b theta n F T, n <> v0 ->
  point_matrix_gravity a b = Ok (F, T) ->
  exists a' b' f, rotate_point_array a theta n = Ok a' /\ rotate_point_array b theta n = Ok b'
    /\ is_rotation n theta f /\ point_matrix_gravity a' b' = Ok (f F, f T).
Proof. exact gravity_rotate. Qed.
Print Assumptions C04_rotation_gravity.
Theorem C04_rotation_yukawa : forall a b alpha lmbd theta n F T, n <> v0 -> lmbd <> 0 ->
  point_matrix_yukawa a b alpha lmbd = Ok (F, T) ->
  exists a' b' f, rotate_point_array a theta n = Ok a' /\ rotate_point_array b theta n = Ok b'
    /\ is_rotation n theta f /\ point_matrix_yukawa a' b' alpha lmbd = Ok (f F, f T).
Proof. exact yukawa_rotate. Qed.

(* ---- C05 ---- *)
Theorem C05_translate_identity : forall a, translate_point_array a v0 = a.
Proof. exact translate_zero. Qed.
Theorem C05_translate_additive : forall a s t,
  translate_point_array (translate_point_array a s) t = translate_point_array a (vadd s t).
Proof. exact translate_compose. Qed.
Theorem C05_translate_pointwise : forall a t i p, nth_error (rows a) i = Some p ->
  exists q, nth_error (rows (translate_point_array a t)) i = Some q
         /\ pm q = pm p /\ pp q = vadd (pp p) t.
Proof. intros a t i p H. destruct (translate_pointwise (rows a) t i p H) as (q & A & B). exists q. split; [|exact B].
  rewrite rows_translate. exact A. Qed.
Theorem C05_translate_length : forall a t, length (rows (translate_point_array a t)) = length (rows a).
Proof. intros. rewrite rows_translate. apply map_length. Qed.
Print Assumptions C05_translate_pointwise.

(* ---- C06 ---- *)
(* one and the same linear map, the right-handed rotation by theta about n, is
   applied to every point; masses are untouched *)
Theorem C06_rotation : forall theta n, n <> v0 ->
  exists f, is_rotation n theta f
    /\ (forall l, rotate_point_array (Rows l) theta n = Ok (Rows (map (fun p => mkpt (pm p) (f (pp p))) l)))
    /\ (forall p, rotate_point_array (Row p) theta n = Ok (Row (mkpt (pm p) (f (pp p))))).
Proof. exact rotate_array_rotation. Qed.
Print Assumptions C06_rotation.
(* is_rotation pins the map down *)
Theorem C06_rotation_unique : forall n theta f g, n <> v0 ->
  is_rotation n theta f -> is_rotation n theta g -> forall v, f v = g v.
Proof. exact is_rotation_unique. Qed.
Theorem C06_angles_add : forall a s t n, n <> v0 ->
  bind (rotate_point_array a s n) (fun b => rotate_point_array b t n) = rotate_point_array a (s + t) n.
Proof. exact rotate_compose. Qed.
Theorem C06_full_turn : forall a n, n <> v0 -> rotate_point_array a (2 * PI) n = Ok a.
Proof. exact rotate_2PI. Qed.
Theorem C06_axis_length : forall a theta n c, n <> v0 -> 0 < c ->
  rotate_point_array a theta (vscal c n) = rotate_point_array a theta n.
Proof. exact rotate_axis_scale. Qed.
Theorem C06_zero_axis : forall p l theta,
  rotate_point_array (Rows (p :: l)) theta v0 = Err NotFinite
  /\ rotate_point_array (Row p) theta v0 = Err NotFinite.
Proof. exact rotate_zero_axis. Qed.
Theorem C06_coordinate_axes : forall m x y z theta,
  rotate_point_array (Row (mkpt m (x, y, z))) theta (0, 0, 1)
    = Ok (Row (mkpt m (cos theta * x - sin theta * y, sin theta * x + cos theta * y, z)))
  /\ rotate_point_array (Row (mkpt m (x, y, z))) theta (0, 1, 0)
    = Ok (Row (mkpt m (cos theta * x + sin theta * z, y, - sin theta * x + cos theta * z))).
Proof.
  intros. split.
  - rewrite rotate_array_spec by (intros E; injection E; lra). cbn [pm pp]. now rewrite axis_rot_z.
  - rewrite rotate_array_spec by (intros E; injection E; lra). cbn [pm pp]. now rewrite axis_rot_y.
Qed.
Print Assumptions C06_coordinate_axes.

(* ---- C07 ---- *)
Theorem C07_gravity_finite_iff : forall a b,
  (exists F T, point_matrix_gravity a b = Ok (F, T)) <-> apart_all (rows a) (rows b).
Proof. exact gravity_finite_iff. Qed.
Theorem C07_gravity_failure_is_notfinite : forall a b e, point_matrix_gravity a b = Err e -> e = NotFinite.
Proof. intros a b e. rewrite gravity_spec. destruct (coincide (rows a) (rows b)); congruence. Qed.
Theorem C07_gmmr2_finite_iff : forall p b,
  (exists f, gmmr2_array p b = Ok f) <-> (forall q, In q (rows b) -> pp q <> pp p).
Proof.
  intros p b. rewrite gmmr2_rows, gmmr2_many. destruct (existsb _ (rows b)) eqn:E.
  - split; [intros [f H]; discriminate|]. intros H. apply existsb_exists in E. destruct E as (q & Hq & E).
    apply is0_true in E. exfalso. revert E. apply dist_neq0. intros E. apply (H q Hq). congruence.
  - split; [|eauto]. intros _ q Hq E'. assert (existsb (fun q => is0 (dist p q)) (rows b) = true); [|congruence].
    apply existsb_exists. exists q. split; [exact Hq|]. destruct (is0 (dist p q)) eqn:E2; [reflexivity|].
    apply is0_false in E2. apply dist_neq0 in E2. unfold apart in E2. congruence.
Qed.
Print Assumptions C07_gmmr2_finite_iff.
Example C07_witness_fail : point_matrix_gravity ex_a ex_a = Err NotFinite.
Proof.
  rewrite gravity_spec. replace (coincide (rows ex_a) (rows ex_a)) with true; [reflexivity|].
  symmetry. apply coincide_true. exists (mkpt 2 (1, 0, 0)), (mkpt 2 (1, 0, 0)). cbn. auto.
Qed.
