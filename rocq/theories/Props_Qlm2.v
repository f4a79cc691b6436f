(* C37 (guards of newt/qlm.py) and C38 (homogeneity) *)
From Verif Require Import QlmProofs7 Props_Qlm.
From Verif Require Import ClebschGordanProofs TranslationsProofs.
From Verif Require Import Cplx.
Open Scope C_scope.

(* ---- C37 ---- *)
(* a call is rejected with ValueError exactly when one of the listed conditions holds, and
   otherwise returns an array of degree L *)
Definition accepts (L : Z) (r : res marr) : Prop := exists q, r = Ok q /\ deg q = L.
Definition guarded (L : Z) (bad : Prop) (r : res marr) : Prop := (bad -> r = Err ValueError) /\ (~ bad -> accepts L r).
Ltac okd := eexists; split; [reflexivity|]; rewrite ?deg_reflect; unfold mdiv; cbn [deg]; apply deg_fill; lia.
Ltac nots := repeat match goal with H : ~ (_ \/ _) |- _ => apply Decidable.not_or in H; destruct H end.
Theorem C37_cylinder : forall L mass H Rad, (0 <= L)%Z -> guarded L (H <= 0 \/ Rad <= 0)%R (cylinder L mass H Rad).
Proof.
  intros L mass H Rad HL. split; intros G.
  - unfold cylinder. guard_t.
  - nots. destruct (C35_cylinder L mass H Rad HL) as (q & E & D & _); try lra. now exists q.
Qed.
Theorem C37_cone : forall L mass P Rad phic phih, (0 <= L)%Z ->
  guarded L (P <= 0 \/ Rad <= 0 \/ phih <= 0 \/ PI < phih)%R (cone L mass P Rad phic phih).
Proof.
  intros L mass P Rad pc ph HL. split; intros G.
  - unfold cone. guard_t.
  - nots. destruct (C35_cone L mass P Rad pc ph HL) as (q & E & D & _); try lra. now exists q.
Qed.
(* a shell without thickness passes the guard and then divides by zero *)
Theorem C37_annulus : forall L mass H Ri Ro phic phih, (0 <= L)%Z ->
  let bad := (H <= 0 \/ Ro < Ri \/ phih <= 0 \/ PI < phih \/ Ri < 0)%R in
  (bad -> annulus L mass H Ri Ro phic phih = Err ValueError) /\
  (~ bad -> Ro = Ri -> annulus L mass H Ri Ro phic phih = Err NotFinite) /\
  (~ bad -> Ro <> Ri -> accepts L (annulus L mass H Ri Ro phic phih)).
Proof.
  intros L mass H Ri Ro pc ph HL bad. split; [|split]; intros G.
  - unfold annulus. unfold bad in G. guard_t.
  - intros E. unfold bad in G. nots. unfold annulus. guard_f. rewrite is0_t; [reflexivity|]. rewrite E. ring.
  - intros E. unfold bad in G. nots. destruct (C35_annulus L mass H Ri Ro pc ph HL) as (q & E' & D & _); try lra. now exists q.
Qed.
Theorem C37_tri_iso_prism : forall L mass H a d phic, (0 <= L)%Z -> guarded L (H <= 0 \/ d = 0 \/ a <= 0)%R (tri_iso_prism L mass H a d phic).
Proof.
  intros L mass H a d pc HL. split; intros G.
  - unfold tri_iso_prism. guard_t.
  - nots. destruct (C36_tri_iso_prism L mass H a d pc HL) as (q & E & D & _); try assumption; try lra. now exists q.
Qed.
(* the half angle pi/2 passes the guard although its tangent does not exist *)
Theorem C37_tri_iso_prism2 : forall L mass H Rad phic phih, (0 <= L)%Z ->
  let bad := (H <= 0 \/ Rad <= 0 \/ phih <= 0 \/ PI / 2 < phih)%R in
  (bad -> tri_iso_prism2 L mass H Rad phic phih = Err ValueError) /\
  (~ bad -> phih = (PI / 2)%R -> tri_iso_prism2 L mass H Rad phic phih = Err NotFinite) /\
  (~ bad -> phih <> (PI / 2)%R -> accepts L (tri_iso_prism2 L mass H Rad phic phih)).
Proof.
  intros L mass H Rad pc ph HL bad. split; [|split]; intros G.
  - unfold tri_iso_prism2. unfold bad in G. guard_t.
  - intros E. unfold bad in G. nots. unfold tri_iso_prism2. guard_f. rewrite is0_t; [reflexivity|]. rewrite E. apply cos_PI2.
  - intros E. unfold bad in G. nots. destruct (C36_tri_iso_prism2 L mass H Rad pc ph HL) as (q & E' & D & _); try lra. now exists q.
Qed.
Theorem C37_tri_prism : forall L mass H d y1 y2, (0 <= L)%Z -> guarded L (H <= 0 \/ d = 0 \/ y1 = y2)%R (tri_prism L mass H d y1 y2).
Proof.
  intros L mass H d y1 y2 HL. split; intros G.
  - unfold tri_prism. guard_t.
  - nots. destruct (C36_tri_prism L mass H d y1 y2 HL) as (q & E & D & _); try assumption; try lra. now exists q.
Qed.
Theorem C37_rect_prism : forall L mass H a b phic, (0 <= L)%Z -> guarded L (H <= 0 \/ b <= 0 \/ a <= 0)%R (rect_prism L mass H a b phic).
Proof.
  intros L mass H a b pc HL. split; intros G.
  - unfold rect_prism. guard_t.
  - nots. destruct (C36_rect_prism L mass H a b pc HL) as (q & E & D & _); try lra. now exists q.
Qed.
(* N = 1 and N = 2 are accepted by the guard but are no polygons: tan(pi/N) is 0 or undefined *)
Theorem C37_ngon_prism : forall L mass H a phic N, (0 <= L)%Z ->
  let bad := (H <= 0)%R \/ (a <= 0)%R \/ (N <= 0)%Z in
  (bad -> ngon_prism L mass H a phic N = Err ValueError) /\
  (~ bad -> (N = 1 \/ N = 2)%Z -> ngon_prism L mass H a phic N = Err NotFinite) /\
  (~ bad -> (3 <= N)%Z -> accepts L (ngon_prism L mass H a phic N)).
Proof.
  intros L mass H a pc N HL bad. split; [|split]; intros G.
  - unfold ngon_prism. unfold bad in G. guard_t.
  - intros E. unfold bad in G. nots. unfold ngon_prism. rewrite !rle_f by lra. destruct E as [-> | ->]; reflexivity.
  - intros E. unfold bad in G. nots. destruct (C36_ngon_prism L mass H a pc (Z.to_nat N) HL) as (q & E' & D & _); try lra; try lia.
    rewrite Z2Nat.id in E' by lia. now exists q.
Qed.
Theorem C37_tetrahedron : forall L mass x y z, (0 <= L)%Z -> guarded L (x <= 0 \/ y <= 0 \/ z <= 0)%R (tetrahedron L mass x y z).
Proof.
  intros L mass x y z HL. split; intros G.
  - unfold tetrahedron. guard_t.
  - nots. destruct (C36_tetrahedron L mass x y z HL) as (q & E & D & _); try lra. now exists q.
Qed.
Theorem C37_tetrahedron2 : forall L mass x y1 y2 z, (0 <= L)%Z -> guarded L (x <= 0 \/ y1 = y2 \/ z <= 0)%R (tetrahedron2 L mass x y1 y2 z).
Proof.
  intros L mass x y1 y2 z HL. split; intros G.
  - unfold tetrahedron2. guard_t.
  - nots. destruct (C36_tetrahedron2 L mass x y1 y2 z HL) as (q & E & D & _); try assumption; try lra. now exists q.
Qed.
Theorem C37_pyramid : forall L mass x y z, (0 <= L)%Z -> guarded L (x <= 0 \/ y <= 0 \/ z <= 0)%R (pyramid L mass x y z).
Proof.
  intros L mass x y z HL. split; intros G.
  - unfold pyramid. guard_t.
  - nots. destruct (C36_pyramid L mass x y z HL) as (q & E & D & _); try lra. now exists q.
Qed.
Example C37_case : annulus 3 1 2 1 1 0 PI = Err NotFinite /\ annulus 3 1 2 1 1 0 (-1) = Err ValueError /\ accepts 3 (annulus 3 1 2 0 1 0 PI).
Proof.
  assert (Hp := PI_RGT_0). split; [|split].
  - apply (C37_annulus 3 1 2 1 1 0 PI); [lia| |reflexivity]. lra.
  - apply (C37_annulus 3 1 2 1 1 0 (-1)); [lia|]. lra.
  - apply (C37_annulus 3 1 2 0 1 0 PI); [lia| |]; lra.
Qed.
Print Assumptions C37_annulus.
Print Assumptions C37_ngon_prism.

(* ---- C38 ---- *)
(* r' is r with every moment of degree l multiplied by s^l (or fails in the same way) *)
Definition homogeneous (s : R) (r r' : res marr) : Prop :=
  match r, r' with
  | Ok q, Ok q' => deg q' = deg q /\ forall l m, (0 <= l <= deg q)%Z -> (Z.abs m <= deg q)%Z -> mom q' l m = RtoC (s ^ Z.to_nat l) * mom q l m
  | Err e, Err e' => e = e'
  | _, _ => False
  end.
Lemma hom_same s q q' p p' : same p q -> same p' q' -> homogeneous s (Ok p) (Ok p') -> homogeneous s (Ok q) (Ok q').
Proof.
  intros [D H] [D' H'] [E G]. split; [congruence|]. intros l m Hl Hm. rewrite <- D in *. rewrite <- H, <- H' by (rewrite ?E; lia). now apply G.
Qed.
Lemma hom_fill s L (f f' : Z -> Z -> C) : (0 <= L)%Z -> (forall l m, (0 <= m <= l)%Z -> f' l m = RtoC (s ^ Z.to_nat l) * f l m) ->
  homogeneous s (Ok (Arr.reflect (fill 0 (L + 1) L f (zeros L)))) (Ok (Arr.reflect (fill 0 (L + 1) L f' (zeros L)))).
Proof.
  intros HL H. assert (D : forall g, deg (fill 0 (L + 1) L g (zeros L)) = L) by (intros; apply deg_fill; lia).
  split; [rewrite !deg_reflect, !D; reflexivity|]. intros l m Hl Hm. rewrite !deg_reflect, D in Hl, Hm.
  rewrite (reflect_mom _ f') by (rewrite ?D; (now apply half_fill) || lia). rewrite (reflect_mom _ f) by (rewrite ?D; (now apply half_fill) || lia).
  destruct (Z.eqb_spec m 0); [|destruct (Z.ltb_spec 0 m), (Z.ltb_spec m 0), (Z.leb_spec m l), (Z.leb_spec (- m) l); cbn [andb]; try lia; try (ring || (apply H; lia))].
  - rewrite H by lia. destruct (f l 0%Z) as [u v]. apply C_eq; cbn; ring.
  - rewrite H by lia. rewrite Cconj_mult, Cconj_RtoC. ring.
Qed.
Lemma entry_scale s mass V V' nr (I I' : C) l : s <> 0%R -> (0 <= l)%Z -> V <> 0%R -> V' = (pw s 3 * V)%R -> I' = RtoC (pw s (l + 3)) * I ->
  RtoC (mass / V') * (RtoC nr * I') = RtoC (s ^ Z.to_nat l) * (RtoC (mass / V) * (RtoC nr * I)).
Proof.
  intros Hs Hl HV -> ->. rewrite (pw_add_nonneg s l 3), <- pw_nonneg by lia. assert (F := pw_neq0 s 3 Hs).
  transitivity (RtoC (mass / (pw s 3 * V) * (pw s l * pw s 3)) * (RtoC nr * I)); [rewrite (RtoC_mult (mass / _)); ring|].
  transitivity (RtoC (pw s l * (mass / V)) * (RtoC nr * I)); [|rewrite RtoC_mult; ring]. do 2 f_equal. field. split; assumption.
Qed.
Lemma mono_int_scale s mu mu' l m : (0 <= m <= l)%Z -> (forall a b c, (0 <= a)%Z -> (0 <= b)%Z -> (0 <= c)%Z -> mu' a b c = (pw s (a + b + c + 3) * mu a b c)%R) ->
  mono_int mu' l m = RtoC (pw s (l + 3)) * mono_int mu l m.
Proof.
  intros Hm H. destruct (half_range l m Hm). unfold mono_int. rewrite <- zsum_scal_l. apply zsum_ext. intros k Hk. rewrite <- zsum_scal_l. apply zsum_ext. intros p Hp.
  rewrite <- zsum_scal_l. apply zsum_ext. intros j Hj. rewrite H by lia. replace (m + 2 * k - (p + j) + (p + j) + (l - m - 2 * k) + 3)%Z with (l + 3)%Z by ring. rewrite RtoC_mult. ring.
Qed.
Lemma mono_int2_scale s mu mu' l m : (0 <= m <= l)%Z -> (forall a b c, (0 <= a)%Z -> (0 <= b)%Z -> (0 <= c)%Z -> mu' a b c = (pw s (a + b + c + 3) * mu a b c)%R) ->
  mono_int2 mu' l m = RtoC (pw s (l + 3)) * mono_int2 mu l m.
Proof.
  intros Hm H. destruct (half_range l m Hm).
  assert (Hm2 : (2 * (m / 2) <= m)%Z) by (assert (Hd' := Z.div_mod m 2 ltac:(lia)); assert (Hb' := Z.mod_pos_bound m 2 ltac:(lia)); lia).
  unfold mono_int2. rewrite <- zsum_scal_l. apply zsum_ext. intros k Hk. rewrite <- zsum_scal_l. apply zsum_ext. intros p Hp.
  rewrite <- zsum_scal_l. apply zsum_ext. intros j Hj. rewrite H by lia. replace (m + 2 * k - (2 * j + 2 * p) + (2 * j + 2 * p) + (l - m - 2 * k) + 3)%Z with (l + 3)%Z by ring. rewrite RtoC_mult. ring.
Qed.
Lemma zval_scale s H c : (0 <= c)%Z -> zval (s * H) c = (pw s (c + 1) * zval H c)%R.
Proof. intros Hc. unfold zval. destruct (Z.even c); [|ring]. rewrite pw_mult by lia. unfold Rdiv. ring. Qed.
Lemma pw_split s a b : (0 <= a)%Z -> (0 <= b)%Z -> forall n, n = (a + b)%Z -> pw s n = (pw s a * pw s b)%R.
Proof. intros Ha Hb n ->. now apply pw_add_nonneg. Qed.
Lemma mu_tri_scale s H d y1 y2 a b c : (0 <= a)%Z -> (0 <= b)%Z -> (0 <= c)%Z -> mu_tri (s * H) (s * d) (s * y1) (s * y2) a b c = (pw s (a + b + c + 3) * mu_tri H d y1 y2 a b c)%R.
Proof.
  intros Ha Hb Hc. unfold mu_tri. rewrite zval_scale, !pw_mult by lia.
  rewrite (pw_split s (a + 1) (b + c + 2) ltac:(lia) ltac:(lia) (a + b + c + 3)) by lia. rewrite (pw_split s (b + 1) (c + 1) ltac:(lia) ltac:(lia) (b + c + 2)) by lia. unfold Rdiv. ring.
Qed.
Lemma mu_corner_scale s x y z a b c : (0 <= a)%Z -> (0 <= b)%Z -> (0 <= c)%Z -> mu_corner (s * x) (s * y) (s * z) a b c = (pw s (a + b + c + 3) * mu_corner x y z a b c)%R.
Proof.
  intros Ha Hb Hc. unfold mu_corner. rewrite !pw_mult by lia.
  rewrite (pw_split s (a + 1) (b + c + 2) ltac:(lia) ltac:(lia) (a + b + c + 3)) by lia. rewrite (pw_split s (b + 1) (c + 1) ltac:(lia) ltac:(lia) (b + c + 2)) by lia. unfold Rdiv. ring.
Qed.
Lemma mu_apex_scale s x y1 y2 z a b c : (0 <= a)%Z -> (0 <= b)%Z -> (0 <= c)%Z -> mu_apex (s * x) (s * y1) (s * y2) (s * z) a b c = (pw s (a + b + c + 3) * mu_apex x y1 y2 z a b c)%R.
Proof.
  intros Ha Hb Hc. unfold mu_apex. rewrite !pw_mult by lia.
  rewrite (pw_split s (a + 1) (b + c + 2) ltac:(lia) ltac:(lia) (a + b + c + 3)) by lia. rewrite (pw_split s (b + 1) (c + 1) ltac:(lia) ltac:(lia) (b + c + 2)) by lia. unfold Rdiv. ring.
Qed.
Lemma mu_box_scale s H x y a b c : (0 <= a)%Z -> (0 <= b)%Z -> (0 <= c)%Z -> mu_box (s * H) (s * x) (s * y) a b c = (pw s (a + b + c + 3) * mu_box H x y a b c)%R.
Proof.
  intros Ha Hb Hc. unfold mu_box. rewrite !zval_scale by lia.
  rewrite (pw_split s (a + 1) (b + c + 2) ltac:(lia) ltac:(lia) (a + b + c + 3)) by lia. rewrite (pw_split s (b + 1) (c + 1) ltac:(lia) ltac:(lia) (b + c + 2)) by lia. ring.
Qed.
Lemma mu_pyr_scale s x y z a b c : (0 <= a)%Z -> (0 <= b)%Z -> (0 <= c)%Z -> mu_pyr (s * x) (s * y) (s * z) a b c = (pw s (a + b + c + 3) * mu_pyr x y z a b c)%R.
Proof.
  intros Ha Hb Hc. unfold mu_pyr. rewrite !pw_mult by lia.
  rewrite (pw_split s (a + 1) (b + c + 2) ltac:(lia) ltac:(lia) (a + b + c + 3)) by lia. rewrite (pw_split s (b + 1) (c + 1) ltac:(lia) ltac:(lia) (b + c + 2)) by lia. unfold Rdiv. ring.
Qed.
Lemma iso_int_scale s H d y l m : (0 <= m <= l)%Z -> iso_int (s * H) (s * d) (s * y) l m = RtoC (pw s (l + 3)) * iso_int H d y l m.
Proof.
  intros Hm. unfold iso_int. apply mono_int2_scale; [assumption|]. intros a b c Ha Hb Hc.
  destruct (Z.even b); [|ring]. replace (- (s * y))%R with (s * - y)%R by ring. now apply mu_tri_scale.
Qed.
Lemma pw3 s : pw s 3 = (s * s * s)%R. Proof. rewrite pw_nonneg by lia. change (Z.to_nat 3) with 3%nat. ring. Qed.
Lemma annular_int_scale s H Ri Ro pc ph l m : (0 <= m <= l)%Z -> annular_int (s * H) (s * Ri) (s * Ro) pc ph l m = RtoC (pw s (l + 3)) * annular_int H Ri Ro pc ph l m.
Proof.
  intros Hm. destruct (half_range l m Hm). unfold annular_int. rewrite <- zsum_scal_l. apply zsum_ext. intros k Hk. rewrite zval_scale, !pw_mult by lia.
  rewrite (pw_split s (m + 2 * k + 2) (l - m - 2 * k + 1) ltac:(lia) ltac:(lia) (l + 3)) by lia.
  match goal with |- ?u * (?v * RtoC ?x) = RtoC ?y * (?u * (?v * RtoC ?z)) => transitivity (u * v * RtoC x); [ring|transitivity (u * v * RtoC (y * z)); [|rewrite (RtoC_mult y); ring]] end.
  do 2 f_equal. unfold Rdiv. ring.
Qed.
Lemma cone_int_scale s P Rad pc ph l m : (0 <= m <= l)%Z -> cone_int (s * P) (s * Rad) pc ph l m = RtoC (pw s (l + 3)) * cone_int P Rad pc ph l m.
Proof.
  intros Hm. destruct (half_range l m Hm). unfold cone_int. rewrite <- zsum_scal_l. apply zsum_ext. intros k Hk. rewrite !pw_mult by lia.
  rewrite (pw_split s (m + 2 * k + 2) (l - m - 2 * k + 1) ltac:(lia) ltac:(lia) (l + 3)) by lia.
  match goal with |- ?u * (?v * RtoC ?x) = RtoC ?y * (?u * (?v * RtoC ?z)) => transitivity (u * v * RtoC x); [ring|transitivity (u * v * RtoC (y * z)); [|rewrite (RtoC_mult y); ring]] end.
  do 2 f_equal. unfold Rdiv. ring.
Qed.
(* scaling does not change what the guards see *)
Lemma rle_s s x : (0 < s)%R -> rle (s * x) 0 = rle x 0.
Proof. intros Hs. unfold rle. destruct (Rle_dec (s * x) 0), (Rle_dec x 0); try reflexivity; exfalso; nra. Qed.
Lemma rlt_s s x y : (0 < s)%R -> rlt (s * x) (s * y) = rlt x y.
Proof. intros Hs. unfold rlt. destruct (Rlt_dec (s * x) (s * y)), (Rlt_dec x y); try reflexivity; exfalso; nra. Qed.
Lemma rlt_s0 s x : (0 < s)%R -> rlt (s * x) 0 = rlt x 0.
Proof. intros Hs. unfold rlt. destruct (Rlt_dec (s * x) 0), (Rlt_dec x 0); try reflexivity; exfalso; nra. Qed.
Lemma req_s s x y : (0 < s)%R -> req (s * x) (s * y) = req x y.
Proof. intros Hs. unfold req. destruct (Req_EM_T (s * x) (s * y)), (Req_EM_T x y); try reflexivity; exfalso; nra. Qed.
Lemma req_s0 s x : (0 < s)%R -> req (s * x) 0 = req x 0.
Proof. intros Hs. rewrite <- (req_s s x 0 Hs). now rewrite Rmult_0_r. Qed.
Ltac scaled_guard := rewrite ?rle_s, ?rlt_s, ?rlt_s0, ?req_s, ?req_s0 by assumption.
Ltac opens := repeat match goal with H : (_ || _)%bool = false |- _ => apply Bool.orb_false_elim in H; destruct H end;
  repeat match goal with H : rle _ _ = false |- _ => apply rle_false in H | H : rlt _ _ = false |- _ => apply rlt_false in H | H : req _ _ = false |- _ => apply req_false in H end.
Ltac nz := repeat match goal with |- (?a * ?b)%R <> 0%R => apply Rmult_integral_contrapositive_currified | |- (?a / ?b)%R <> 0%R => apply Rmult_integral_contrapositive_currified | |- (/ ?a)%R <> 0%R => apply Rinv_neq_0_compat end; try assumption; try (intros ?; lra).

Theorem C38_sphere : forall s L mass Rad, (0 <= L)%Z -> homogeneous s (Ok (sphere L mass Rad)) (Ok (sphere L mass (s * Rad))).
Proof.
  intros s L mass Rad HL. split; [reflexivity|]. intros l m Hl Hm. unfold mom, sphere. rewrite !deg_upd, !upd_spec. cbn [deg zeros at_].
  destruct (Z.eqb_spec l 0) as [->|]; destruct (_ =? _)%Z; cbn [andb pow Z.to_nat]; ring.
Qed.
Theorem C38_cylinder : forall s L mass H Rad, (0 < s)%R -> (0 <= L)%Z -> homogeneous s (cylinder L mass H Rad) (cylinder L mass (s * H) (s * Rad)).
Proof.
  intros s L mass H Rad Hs HL. unfold homogeneous.
  destruct (cylinder L mass H Rad) as [q|e] eqn:E; destruct (cylinder L mass (s * H) (s * Rad)) as [q'|e'] eqn:E'.
  - apply (hom_same s q q' _ _ (cylinder_same _ _ _ _ _ HL E) (cylinder_same _ _ _ _ _ HL E')).
    unfold cylinder in E. destruct (_ || _)%bool eqn:G; [discriminate|]. opens. clear E E'.
    apply hom_fill; [assumption|]. intros l m Hm. assert (Hp := PI_RGT_0).
    rewrite !cyl_entry_int by (assumption || (apply Rmult_integral_contrapositive_currified; lra) || lra).
    assert (0 < Rad ^ 2)%R by (apply pow_lt; lra).
    apply entry_scale; [lra|lia| |rewrite pw3; ring|].
    + nz.
    + replace 0%R with (s * 0)%R at 1 by ring. apply annular_int_scale. assumption.
  - unfold cylinder in E, E'. rewrite !rle_s in E' by assumption. destruct (_ || _)%bool; discriminate.
  - unfold cylinder in E, E'. rewrite !rle_s in E' by assumption. destruct (_ || _)%bool; discriminate.
  - unfold cylinder in E, E'. rewrite !rle_s in E' by assumption. destruct (_ || _)%bool; [congruence|discriminate].
Qed.
Lemma mdiv_reflect q c : c <> 0%R -> same (Arr.reflect (mdiv q c)) (mdiv (Arr.reflect q) c).
Proof.
  intros Hc. split; [reflexivity|]. intros l m Hl Hm. unfold mom, Arr.reflect, mdiv. cbn [deg at_]. rewrite Cconj_div, Cconj_RtoC.
  assert (HC := RtoC_neq0 c Hc). destruct (_ =? _)%Z; field; try assumption; split; try assumption.
Qed.
Theorem C38_annulus : forall s L mass H Ri Ro phic phih, (0 < s)%R -> (0 <= L)%Z ->
  homogeneous s (annulus L mass H Ri Ro phic phih) (annulus L mass (s * H) (s * Ri) (s * Ro) phic phih).
Proof.
  intros s L mass H Ri Ro pc ph Hs HL. unfold annulus. scaled_guard. destruct (_ || _)%bool eqn:G; [reflexivity|]. opens. cbv zeta.
  replace ((s * Ro) ^ 2 - (s * Ri) ^ 2)%R with (s ^ 2 * (Ro ^ 2 - Ri ^ 2))%R by ring.
  assert (Hs2 : (0 < s ^ 2)%R) by (apply pow_lt; lra).
  destruct (Req_dec (Ro ^ 2 - Ri ^ 2) 0) as [Hr|Hr].
  - rewrite Hr, Rmult_0_r. rewrite is0_t by reflexivity. reflexivity.
  - rewrite !is0_f by nz. 
    assert (D : forall g, deg (fill 0 (L + 1) L g (zeros L)) = L) by (intros; apply deg_fill; lia).
    assert (HF := half_fill L (annulus_entry mass H Ri Ro pc ph) HL). assert (HF' := half_fill L (annulus_entry mass (s * H) (s * Ri) (s * Ro) pc ph) HL).
    apply (half_mdiv _ _ (Ro ^ 2 - Ri ^ 2)) in HF. apply (half_mdiv _ _ (s ^ 2 * (Ro ^ 2 - Ri ^ 2))) in HF'.
    assert (K : forall l m, (0 <= m <= l)%Z -> annulus_entry mass (s * H) (s * Ri) (s * Ro) pc ph l m / RtoC (s ^ 2 * (Ro ^ 2 - Ri ^ 2)) = RtoC (s ^ Z.to_nat l) * (annulus_entry mass H Ri Ro pc ph l m / RtoC (Ro ^ 2 - Ri ^ 2))).
    { intros l m Hm. rewrite annulus_entry_int by (assumption || (intros ?; lra)). replace (s ^ 2 * (Ro ^ 2 - Ri ^ 2))%R with ((s * Ro) ^ 2 - (s * Ri) ^ 2)%R by ring.
      rewrite annulus_entry_int; [|assumption|nz|intros ?; lra|replace ((s * Ro) ^ 2 - (s * Ri) ^ 2)%R with (s ^ 2 * (Ro ^ 2 - Ri ^ 2))%R by ring; nz].
      apply entry_scale; [lra|lia|nz|rewrite pw3; ring|now apply annular_int_scale]. }
    split; [rewrite !deg_reflect; unfold mdiv; cbn [deg]; rewrite !D; reflexivity|].
    intros l m Hl Hm. rewrite !deg_reflect in Hl, Hm. unfold mdiv in Hl, Hm; cbn [deg] in Hl, Hm; rewrite D in Hl, Hm.
    rewrite (reflect_mom _ _ l m HF), (reflect_mom _ _ l m HF') by (unfold mdiv; cbn [deg]; rewrite ?D; lia).
    destruct (Z.eqb_spec m 0); [|destruct (Z.ltb_spec 0 m), (Z.ltb_spec m 0), (Z.leb_spec m l), (Z.leb_spec (- m) l); cbn [andb]; try lia; try (ring || (apply K; lia))].
    + rewrite K by lia. destruct (annulus_entry _ _ _ _ _ _ l 0 / _) as [u v]. apply C_eq; cbn; ring.
    + rewrite K by lia. rewrite Cconj_mult, Cconj_RtoC. ring.
Qed.
Theorem C38_cone : forall s L mass P Rad phic phih, (0 < s)%R -> (0 <= L)%Z ->
  homogeneous s (cone L mass P Rad phic phih) (cone L mass (s * P) (s * Rad) phic phih).
Proof.
  intros s L mass P Rad pc ph Hs HL. unfold cone. scaled_guard. destruct (_ || _)%bool eqn:G; [reflexivity|]. opens.
  apply hom_fill; [assumption|]. intros l m Hm. assert (0 < Rad ^ 2)%R by (apply pow_lt; lra).
  rewrite !cone_entry_int by (assumption || nz). apply entry_scale; [lra|lia| |rewrite pw3; field|now apply cone_int_scale].
  assert (0 < P * Rad ^ 2 * ph)%R by (repeat apply Rmult_lt_0_compat; lra). intros ?; lra.
Qed.
Theorem C38_tri_iso_prism : forall s L mass H a d phic, (0 < s)%R -> (0 <= L)%Z ->
  homogeneous s (tri_iso_prism L mass H a d phic) (tri_iso_prism L mass (s * H) (s * a) (s * d) phic).
Proof.
  intros s L mass H a d pc Hs HL. unfold tri_iso_prism. scaled_guard. destruct (_ || _)%bool eqn:G; [reflexivity|]. opens.
  replace (s * a / (2 * (s * d)))%R with (a / (2 * d))%R by (field; split; lra).
  apply hom_fill; [assumption|]. intros l m Hm. rewrite !iso_entry_int by (assumption || nz).
  apply entry_scale; [lra|lia|nz|rewrite pw3; ring|].
  replace (a / (2 * d) * (s * d))%R with (s * (a / (2 * d) * d))%R by ring. rewrite iso_int_scale by assumption. ring.
Qed.
Theorem C38_tri_iso_prism2 : forall s L mass H Rad phic phih, (0 < s)%R -> (0 <= L)%Z ->
  homogeneous s (tri_iso_prism2 L mass H Rad phic phih) (tri_iso_prism2 L mass (s * H) (s * Rad) phic phih).
Proof.
  intros s L mass H Rad pc ph Hs HL. unfold tri_iso_prism2. scaled_guard. destruct (_ || _)%bool eqn:G; [reflexivity|]. opens.
  unfold is0. destruct (Req_EM_T (cos ph) 0) as [|Hc]; [reflexivity|]. assert (Hp := PI_RGT_0).
  assert (Ht : tan ph <> 0%R). { assert (0 < sin ph)%R by (apply sin_gt_0; lra). unfold tan. nz. }
  replace (s * Rad * cos ph)%R with (s * (Rad * cos ph))%R by ring.
  apply hom_fill; [assumption|]. intros l m Hm. rewrite !iso_entry_int by (assumption || nz).
  apply entry_scale; [lra|lia|nz|rewrite pw3; ring|].
  replace (tan ph * (s * (Rad * cos ph)))%R with (s * (tan ph * (Rad * cos ph)))%R by ring. rewrite iso_int_scale by assumption. ring.
Qed.
Theorem C38_tri_prism : forall s L mass H d y1 y2, (0 < s)%R -> (0 <= L)%Z ->
  homogeneous s (tri_prism L mass H d y1 y2) (tri_prism L mass (s * H) (s * d) (s * y1) (s * y2)).
Proof.
  intros s L mass H d y1 y2 Hs HL. unfold tri_prism. scaled_guard. destruct (_ || _)%bool eqn:G; [reflexivity|]. opens.
  assert (Hy : (y2 - y1 <> 0)%R) by (intros ?; apply H1; lra).
  apply hom_fill; [assumption|]. intros l m Hm. rewrite !tri_entry_int by (assumption || nz || (intros E; apply H1; nra)).
  apply entry_scale; [lra|lia|nz|rewrite pw3; field|]. apply mono_int_scale; [assumption|]. intros. now apply mu_tri_scale.
Qed.
Theorem C38_rect_prism : forall s L mass H a b phic, (0 < s)%R -> (0 <= L)%Z ->
  homogeneous s (rect_prism L mass H a b phic) (rect_prism L mass (s * H) (s * a) (s * b) phic).
Proof.
  intros s L mass H a b pc Hs HL. unfold rect_prism. scaled_guard. destruct (_ || _)%bool eqn:G; [reflexivity|]. opens.
  apply hom_fill; [assumption|]. intros l m Hm. rewrite !rect_entry_int by (assumption || nz).
  apply entry_scale; [lra|lia|nz|rewrite pw3; ring|].
  rewrite (mono_int2_scale s (mu_box H a b)); [ring|assumption|]. intros. now apply mu_box_scale.
Qed.
Theorem C38_ngon_prism : forall s L mass H a phic N, (0 < s)%R -> (0 <= L)%Z ->
  homogeneous s (ngon_prism L mass H a phic N) (ngon_prism L mass (s * H) (s * a) phic N).
Proof.
  intros s L mass H a pc N Hs HL. unfold ngon_prism. scaled_guard. destruct (_ || _)%bool eqn:G; [reflexivity|]. opens.
  destruct (Z.leb_spec N 2); [reflexivity|]. assert (Ht := tan_N_pos N ltac:(lia)).
  apply hom_fill; [assumption|]. intros l m Hm. destruct (Z.eqb_spec (m mod N) 0) as [HM|HM].
  - rewrite !ngon_entry_iso by (assumption || (intros ?; lra)).
    replace (s * a / (2 * tan (PI / IZR N)))%R with (s * (a / (2 * tan (PI / IZR N))))%R by (unfold Rdiv; ring).
    set (t := tan (PI / IZR N)) in *. assert (Hd : (a / (2 * t))%R <> 0%R) by nz. set (d := (a / (2 * t))%R) in *. clearbody d t.
    rewrite !iso_entry_int by (assumption || nz).
    apply entry_scale; [lra|lia|nz|rewrite pw3; ring|].
    replace (t * (s * d))%R with (s * (t * d))%R by ring. rewrite iso_int_scale by assumption. ring.
  - unfold ngon_entry. destruct (Z.eqb_spec (m mod N) 0); [contradiction|]. cbn [andb]. ring.
Qed.
Theorem C38_tetrahedron : forall s L mass x y z, (0 < s)%R -> (0 <= L)%Z ->
  homogeneous s (tetrahedron L mass x y z) (tetrahedron L mass (s * x) (s * y) (s * z)).
Proof.
  intros s L mass x y z Hs HL. unfold tetrahedron. scaled_guard. destruct (_ || _)%bool eqn:G; [reflexivity|]. opens.
  apply hom_fill; [assumption|]. intros l m Hm. rewrite !tetra_entry_int by (assumption || nz).
  apply entry_scale; [lra|lia|nz|rewrite pw3; field|]. apply mono_int_scale; [assumption|]. intros. now apply mu_corner_scale.
Qed.
Theorem C38_tetrahedron2 : forall s L mass x y1 y2 z, (0 < s)%R -> (0 <= L)%Z ->
  homogeneous s (tetrahedron2 L mass x y1 y2 z) (tetrahedron2 L mass (s * x) (s * y1) (s * y2) (s * z)).
Proof.
  intros s L mass x y1 y2 z Hs HL. unfold tetrahedron2. scaled_guard. destruct (_ || _)%bool eqn:G; [reflexivity|]. opens.
  assert (Hy : (y2 - y1 <> 0)%R) by (intros ?; apply H1; lra).
  apply hom_fill; [assumption|]. intros l m Hm. rewrite !tetra2_entry_int by (assumption || nz || (intros E; apply H1; nra)).
  apply entry_scale; [lra|lia|nz|rewrite pw3; field|]. apply mono_int_scale; [assumption|]. intros. now apply mu_apex_scale.
Qed.
Theorem C38_pyramid : forall s L mass x y z, (0 < s)%R -> (0 <= L)%Z ->
  homogeneous s (pyramid L mass x y z) (pyramid L mass (s * x) (s * y) (s * z)).
Proof.
  intros s L mass x y z Hs HL. unfold pyramid. scaled_guard. destruct (_ || _)%bool eqn:G; [reflexivity|]. opens.
  apply hom_fill; [assumption|]. intros l m Hm. rewrite !pyramid_entry_int by (assumption || nz).
  apply entry_scale; [lra|lia|nz|rewrite pw3; field|]. apply mono_int_scale; [assumption|]. intros. now apply mu_pyr_scale.
Qed.
(* a case in which both calls succeed *)
Example C38_case : accepts 3 (pyramid 3 5 1 2 3) /\ accepts 3 (pyramid 3 5 (2 * 1) (2 * 2) (2 * 3)).
Proof. split; apply C37_pyramid; (lia || lra). Qed.
Print Assumptions C38_sphere.
Print Assumptions C38_cylinder.
Print Assumptions C38_annulus.
Print Assumptions C38_cone.
Print Assumptions C38_tri_iso_prism.
Print Assumptions C38_tri_iso_prism2.
Print Assumptions C38_tri_prism.
Print Assumptions C38_rect_prism.
Print Assumptions C38_ngon_prism.
Print Assumptions C38_tetrahedron.
Print Assumptions C38_tetrahedron2.
Print Assumptions C38_pyramid.
