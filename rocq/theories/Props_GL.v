(* C41: the Gauss-Legendre point masses of newt/gShapeGL.py *)
From Verif Require Import GShapeGL GLPoints MomentSpec MathSpec GlibShapes GlibShapesProofs Props_GlibShapes GLProofs SolidSpec Qlm VInt Pg2Multi Props_Moments Props_Qlm.
From Verif Require Import QlmProofs6 Pg2MultiProofs.
From Coq Require Import Reals List ZArith Bool Lia Lra Sorting.
From Coquelicot Require Import Coquelicot.
From Verif Require Import Cplx.
Import ListNotations.
Open Scope R_scope.

Lemma leg_ok gl n : (0 < n)%nat -> leggauss gl n = Ok (gl n).
Proof. intros H. unfold leggauss. destruct n; [lia|reflexivity]. Qed.
Lemma gl_rect_eq gl mass x y z dx dy dz : (0 < dx)%nat -> (0 < dy)%nat -> (0 < dz)%nat ->
  gl_rectangle gl mass x y z dx dy dz = Ok (gl_grid (mass / 8) (gl dx) (gl dy) (gl dz) (fun s => s * x / 2) (fun s => s * y / 2) (fun s => s * z / 2)).
Proof. intros. unfold gl_rectangle. now rewrite !leg_ok. Qed.
(* the mass asked for, any mass, any size *)
Theorem C41_rectangle_mass gl mass x y z dx dy dz : rules_at gl (dx :: dy :: dz :: nil) -> (0 < dx)%nat -> (0 < dy)%nat -> (0 < dz)%nat ->
  exists pts, gl_rectangle gl mass x y z dx dy dz = Ok pts /\ length pts = (dx * dy * dz)%nat /\ total_mass pts = mass.
Proof.
  intros G H1 H2 H3. eexists. split; [now apply gl_rect_eq|]. split.
  - assert (K : forall (A : Type) (f : A -> list pt) c l, (forall i, length (f i) = c) -> length (flat_map f l) = (c * length l)%nat).
    { intros A f c l Hf. induction l as [|a l IH]; [cbn; lia|]. cbn [flat_map length]. rewrite app_length, Hf, IH. lia. }
    unfold gl_grid. rewrite (K _ _ (dx * dy)%nat); [now rewrite (gr_len _ _ (G dz ltac:(cbn; tauto)))|]. intros pz. rewrite (K _ _ dx); [now rewrite (gr_len _ _ (G dy ltac:(cbn; tauto)))|]. intros py. rewrite map_length. apply (gr_len _ _ (G dx ltac:(cbn; tauto))).
  - rewrite total_sum. rewrite (grid_product _ _ _ _ _ _ _ (fun _ => 1) (fun _ => 1) (fun _ => 1)) by (intros; cbn [pm]; ring). rewrite (quad_1 dx), (quad_1 dy), (quad_1 dz) by (assumption || (apply G; cbn; tauto)). field.
Qed.
(* every point is strictly inside the brick *)
Theorem C41_rectangle_inside gl mass x y z dx dy dz pts p : rules_at gl (dx :: dy :: dz :: nil) -> 0 < x -> 0 < y -> 0 < z -> (0 < dx)%nat -> (0 < dy)%nat -> (0 < dz)%nat ->
  gl_rectangle gl mass x y z dx dy dz = Ok pts -> In p pts -> brick (0, 0, 0) x y z (pp p) /\ (0 < mass -> 0 < pm p).
Proof.
  intros G Hx Hy Hz H1 H2 H3 E Hp. rewrite gl_rect_eq in E by assumption. injection E as <-. apply in_gl_grid in Hp. destruct Hp as (sx & sy & sz & Ix & Iy & Iz & ->). cbn [pp pm].
  destruct (gr_in _ _ (G dx ltac:(cbn; tauto)) _ Ix) as [X1 X2]. destruct (gr_in _ _ (G dy ltac:(cbn; tauto)) _ Iy) as [Y1 Y2]. destruct (gr_in _ _ (G dz ltac:(cbn; tauto)) _ Iz) as [Z1 Z2]. split.
  - unfold brick. rewrite !Rabs_iff. split; [|split]; split; nra.
  - intros Hm. apply Rmult_lt_0_compat; [lra|]. apply Rmult_lt_0_compat; [|assumption]. now apply Rmult_lt_0_compat.
Qed.

(* ---- moments of a Gauss-Legendre brick are those of the homogeneous brick ---- *)
Open Scope C_scope.
Definition cloud (pts : list pt) : body := fun f I => I = lsum (fun p => RtoC (pm p) * (let '(x, y, z) := pp p in f x y z)) pts.
Lemma regular_cloud pts : regular (cloud pts).
Proof.
  unfold cloud. split.
  - intros f g I H ->. apply lsum_ext. intros p _. destruct (pp p) as [[x y] z]. now rewrite H.
  - intros c f I ->. rewrite <- lsum_scal. apply lsum_ext. intros p _. destruct (pp p) as [[x y] z]. ring.
  - intros f g I J -> ->. rewrite <- lsum_plus. apply lsum_ext. intros p _. destruct (pp p) as [[x y] z]. ring.
  - intros f I ->. induction pts as [|p l IH]; [apply C_eq; cbn; ring|]. cbn [lsum]. rewrite Cconj_plus, IH, Cconj_mult, Cconj_RtoC. destruct (pp p) as [[x y] z]. reflexivity.
  - intros f I J -> ->. reflexivity.
Qed.
Lemma mono_solid_deg (B : body) mu l m : regular B ->
  (forall a b c, (0 <= a)%Z -> (0 <= b)%Z -> (0 <= c)%Z -> (a + b + c = l)%Z -> B (mono a b c) (RtoC (mu a b c))) -> (0 <= m <= l)%Z ->
  B (fun x y z => solid l m x y z) (mono_int mu l m).
Proof.
  intros RB H Hm. destruct (half_range l m Hm) as [Hr Hr'].
  eapply (reg_ext _ RB); [intros x y z; symmetry; apply solid_mono; assumption|].
  apply (reg_zsum B 0 _ (fun k x y z => zsum 0 (m + k + 1) (fun p => zsum 0 (k + 1) (fun j => coef m k p j * mono (m + 2 * k - (p + j)) (p + j) (l - m - 2 * k) x y z)))); [assumption|lia|].
  intros k Hk.
  apply (reg_zsum B 0 _ (fun p x y z => zsum 0 (k + 1) (fun j => coef m k p j * mono (m + 2 * k - (p + j)) (p + j) (l - m - 2 * k) x y z))); [assumption|lia|].
  intros p Hp.
  apply (reg_zsum B 0 _ (fun j x y z => coef m k p j * mono (m + 2 * k - (p + j)) (p + j) (l - m - 2 * k) x y z)); [assumption|lia|].
  intros j Hj. apply (reg_scal B RB). apply H; lia.
Qed.
Lemma mono_int_scal s mu l m : mono_int (fun a b c => s * mu a b c)%R l m = RtoC s * mono_int mu l m.
Proof.
  unfold mono_int. rewrite <- zsum_scal_l. apply zsum_ext. intros k _. rewrite <- zsum_scal_l. apply zsum_ext. intros p _. rewrite <- zsum_scal_l. apply zsum_ext. intros j _. rewrite RtoC_mult. ring.
Qed.
Lemma lsum_RtoC (F : pt -> C) (f : pt -> R) l : (forall p, F p = RtoC (f p)) -> lsum F l = RtoC (sumR (map f l)).
Proof. intros E. induction l as [|p l IH]; [reflexivity|]. cbn [lsum map]. rewrite IH, E. unfold sumR. cbn [fold_right]. now rewrite RtoC_plus. Qed.
Lemma quad_side n r x a : gauss_rule n r -> (0 < x)%R -> (0 <= a < 2 * Z.of_nat n)%Z -> quad r (fun s => pw (s * x / 2) a) = (2 / x * (zfact a * zval x a))%R.
Proof.
  intros G Hx Ha. rewrite (quad_ext r _ (fun s => (x / 2) ^ Z.to_nat a * s ^ Z.to_nat a)%R).
  2:{ intros s. rewrite pw_nonneg by lia. replace (s * x / 2)%R with (x / 2 * s)%R by field. apply Rpow_mult_distr. }
  rewrite quad_scal, (quad_pow n r) by (assumption || lia).
  assert (E1 : INR (S (Z.to_nat a)) = IZR (a + 1)) by (rewrite S_INR, INR_IZR_INZ, Z2Nat.id, plus_IZR by lia; reflexivity). rewrite E1.
  assert (HA : IZR (a + 1) <> 0%R) by (apply IZR_pos_neq0; lia).
  unfold zval. assert (E2 : ((-1) ^ S (Z.to_nat a) = if Z.even a then -1 else 1)%R).
  { cbn [pow]. replace ((-1) ^ Z.to_nat a)%R with (if Z.even a then 1 else -1)%R; [destruct (Z.even a); ring|].
    assert (E3 := Z2Nat.id a ltac:(lia)). rewrite <- E3 at 1. generalize (Z.to_nat a). intros k. induction k as [|k IH]; [reflexivity|]. rewrite Nat2Z.inj_succ, Z.even_succ, <- Z.negb_even. cbn [pow]. rewrite <- IH. destruct (Z.even (Z.of_nat k)); cbn [negb]; ring. }
  rewrite E2. destruct (Z.even a).
  - rewrite pw_add_nonneg, pw_1 by lia. rewrite <- pw_nonneg by lia. rewrite pw_div by (lia || lra). rewrite zfact_succ by lia. assert (F := zfact_neq0 a). assert (P := pw2_neq0 a). field. repeat split; try assumption; lra.
  - field. split; [lra|assumption].
Qed.
Definition below (L : Z) (n : nat) : Prop := (L < 2 * Z.of_nat n)%Z.
Lemma cloud_box gl mass x y z dx dy dz l a b c : rules_at gl (dx :: dy :: dz :: nil) -> (0 < x)%R -> (0 < y)%R -> (0 < z)%R -> (0 < dx)%nat -> (0 < dy)%nat -> (0 < dz)%nat ->
  below l dx -> below l dy -> below l dz -> (0 <= a)%Z -> (0 <= b)%Z -> (0 <= c)%Z -> (a + b + c = l)%Z ->
  cloud (gl_grid (mass / 8) (gl dx) (gl dy) (gl dz) (fun s => s * x / 2) (fun s => s * y / 2) (fun s => s * z / 2))%R (mono a b c) (RtoC (mass / (z * x * y) * mu_box z x y a b c)).
Proof.
  intros G Hx Hy Hz H1 H2 H3 B1 B2 B3 Ha Hb Hc Hl. unfold cloud, below in *. symmetry.
  rewrite (lsum_RtoC _ (fun p => pm p * (let '(x, y, z) := pp p in pw x a * pw y b * (pw z c / zfact c)))%R).
  2:{ intros p. destruct (pp p) as [[px py] pz]. unfold mono. rewrite dp_RtoC by assumption. rewrite <- !RtoC_mult. reflexivity. }
  f_equal. rewrite (grid_product _ _ _ _ _ _ _ (fun u => pw u a) (fun u => pw u b) (fun u => pw u c / zfact c)%R) by (intros; cbn [pm pp]; ring).
  rewrite (quad_ext (gl dz) _ (fun s => / zfact c * pw (s * z / 2) c)%R) by (intros; unfold Rdiv; ring). rewrite quad_scal, (quad_side dx), (quad_side dy), (quad_side dz) by (try (apply G; cbn; tauto); try assumption; lia).
  unfold mu_box. field. repeat split; try lra. apply zfact_neq0.
Qed.
(* moments through degree 2n-1 of the array are exactly those of the homogeneous brick *)
Theorem C41_rectangle_moments gl mass x y z dx dy dz : rules_at gl (dx :: dy :: dz :: nil) -> (0 < x)%R -> (0 < y)%R -> (0 < z)%R -> (0 < dx)%nat -> (0 < dy)%nat -> (0 < dz)%nat ->
  exists pts, gl_rectangle gl mass x y z dx dy dz = Ok pts /\
    forall l m, (Z.abs m <= l)%Z -> below l dx -> below l dy -> below l dz ->
      exists I, box z x y (fun u v w => rsolid l m (u, v, w)) I /\ inner_moment pts l m = RtoC (mass / (z * x * y)) * I.
Proof.
  intros G Hx Hy Hz H1 H2 H3. eexists. split; [now apply gl_rect_eq|]. set (pts := gl_grid _ _ _ _ _ _ _). intros l.
  assert (RB := regular_box z x y). assert (RC := regular_cloud pts).
  assert (K : forall m, (0 <= m <= l)%Z -> below l dx -> below l dy -> below l dz ->
     exists I, box z x y (fun u v w => rsolid l m (u, v, w)) I /\ cloud pts (fun u v w => rsolid l m (u, v, w)) (RtoC (mass / (z * x * y)) * I)).
  { intros m Hm B1 B2 B3. exists (RtoC (nrm l m) * mono_int (mu_box z x y) l m). split.
    - apply (reg_scal _ RB). apply mono_solid_deg; [assumption|intros; now apply box_mono|assumption].
    - replace (RtoC (mass / (z * x * y)) * (RtoC (nrm l m) * mono_int (mu_box z x y) l m)) with (RtoC (nrm l m) * mono_int (fun a b c => mass / (z * x * y) * mu_box z x y a b c)%R l m) by (rewrite mono_int_scal; ring).
      apply (reg_scal _ RC). apply mono_solid_deg; [assumption| |assumption]. intros a b c Ha Hb Hc Hl. now apply (cloud_box gl mass x y z dx dy dz l). }
  assert (E : forall m v, cloud pts (fun u v w => rsolid l m (u, v, w)) v -> inner_moment pts l m = v).
  { intros m v ->. unfold inner_moment. apply lsum_ext. intros p _. destruct (pp p) as [[px py] pz]. reflexivity. }
  intros m Hm B1 B2 B3. destruct (Z_le_dec 0 m) as [P|P].
  - destruct (K m) as (I & I1 & I2); try assumption; [lia|]. exists I. split; [exact I1|]. now apply E.
  - destruct (K (- m)%Z) as (I & I1 & I2); try assumption; [lia|]. exists (sgnC m * Cconj I).
    assert (S : forall u v w, sgnC m * Cconj (rsolid l (- m) (u, v, w)) = rsolid l m (u, v, w)). { intros u v w. assert (Q := VInt.rsolid_symm l (- m) u v w). rewrite Z.opp_involutive, sgnC_opp in Q. now rewrite Q. }
    split; [eapply (reg_ext _ RB); [exact S|]; apply (reg_scal _ RB); now apply (reg_conj _ RB)|].
    apply E. replace (RtoC (mass / (z * x * y)) * (sgnC m * Cconj I)) with (sgnC m * Cconj (RtoC (mass / (z * x * y)) * I)) by (rewrite Cconj_mult, Cconj_RtoC; ring).
    eapply (reg_ext _ RC); [exact S|]. apply (reg_scal _ RC). now apply (reg_conj _ RC).
Qed.
(* so qmoments of the array and the closed form of qlm.rect_prism agree, whenever the moment code accepts the array *)
Theorem C41_rectangle_rect_prism gl mass x y z dx dy dz L : rules_at gl (dx :: dy :: dz :: nil) -> (0 < x)%R -> (0 < y)%R -> (0 < z)%R -> (0 < dx)%nat -> (0 < dy)%nat -> (0 < dz)%nat ->
  (0 <= L)%Z -> below L dx -> below L dy -> below L dz ->
  exists pts, gl_rectangle gl mass x y z dx dy dz = Ok pts /\ (~ origin_before_other pts ->
    exists q q', qmoments L pts = Ok q /\ rect_prism L mass z x y 0 = Ok q' /\ deg q = L /\ deg q' = L /\ forall l m, (0 <= l <= L)%Z -> (Z.abs m <= l)%Z -> mom q l m = mom q' l m).
Proof.
  intros G Hx Hy Hz H1 H2 H3 HL B1 B2 B3. destruct (C41_rectangle_moments gl mass x y z dx dy dz G Hx Hy Hz H1 H2 H3) as (pts & E & HM). exists pts. split; [exact E|]. intros HO.
  destruct (C08_qmoments L pts HL HO) as (q & Eq & Dq & Hq). destruct (C36_rect_prism L mass z x y 0 HL Hz Hx Hy) as (q' & Eq' & Dq' & (V & HV & BV & Hb & _)).
  exists q, q'. split; [exact Eq|]. split; [exact Eq'|]. split; [exact Dq|]. split; [exact Dq'|]. intros l m Hl Hm.
  assert (RT := regular_turned 0 _ (regular_box z x y)). destruct Hq as [Hq _]. rewrite Hq by lia. destruct (HM l m Hm) as (I & I1 & I2); try (unfold below in *; lia). rewrite I2.
  destruct (Hb l m) as (I' & J1 & ->); [lia|lia|].
  assert (T : forall f, forall v, box z x y f v -> turned_z 0 (box z x y) f v). { intros f v H. unfold turned_z. eapply (reg_ext _ (regular_box z x y)); [|exact H]. intros u w t. cbv beta. rewrite cos_0, sin_0. f_equal; ring. }
  assert (EV : RtoC V = RtoC (z * x * y)). { apply (reg_unique _ RT (fun _ _ _ => 1)); [exact BV|]. apply T. assert (Q := mono_000 _ (mu_box z x y) (regular_box z x y) ltac:(intros; now apply box_mono)). now rewrite box_volume in Q. }
  assert (EI : I' = I). { apply (reg_unique _ RT (fun u v w => rsolid l m (u, v, w))); [exact J1|]. now apply T. }
  injection EV as ->. now rewrite EI.
Qed.
Print Assumptions C41_rectangle_mass. Print Assumptions C41_rectangle_inside. Print Assumptions C41_rectangle_moments. Print Assumptions C41_rectangle_rect_prism.
