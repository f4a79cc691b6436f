(* C50, C51, C52: moments by numerical triple integration (qlmNum.py, bigQlmNum.py) *)
From Coq Require Import Classical.
From Verif Require Import NumSpec NumExist2 Props_Qlm Props_BigQlm2 QlmProofs.
From Verif Require Import Cplx.
Open Scope C_scope.

Lemma orb4 a b c d : (a || b || c || d)%bool = false -> a = false /\ b = false /\ c = false /\ d = false.
Proof. destruct a, b, c, d; cbn; auto; discriminate. Qed.
Lemma cst_der (c r : R) : ex_derive (fun _ : R => c) r. Proof. apply (ex_derive_const (K := R_AbsRing) (V := R_NormedModule)). Qed.
Lemma cst_cont (c r : R) : continuous (fun _ : R => c) r. Proof. apply cont_der, cst_der. Qed.
Lemma wedge_cont (a p th : R) : (0 < p < PI / 2)%R -> (Rmin (- p) p <= th <= Rmax (- p) p)%R -> continuous (fun th => (a * cos p / cos th)%R) th.
Proof.
  intros Hp Ht. rewrite Rmin_left, Rmax_right in Ht by lra. assert (0 < cos th)%R by (apply cos_gt_0; lra).
  apply cont_der. auto_derive. lra.
Qed.
Lemma wedge_pos (a p th : R) : (0 < a)%R -> (0 < p < PI / 2)%R -> (Rmin (- p) p <= th <= Rmax (- p) p)%R -> (0 < a * cos p / cos th)%R.
Proof.
  intros Ha Hp Ht. rewrite Rmin_left, Rmax_right in Ht by lra. apply Rdiv_lt_0_compat; [|apply cos_gt_0; lra].
  apply Rmult_lt_0_compat; [assumption|apply cos_gt_0; lra].
Qed.
Lemma half_chord_cont (r : R) (x : R) : continuous (fun x => sqrt (r ^ 2 - x ^ 2)) x.
Proof. apply cont_sqrt. apply cont_der. auto_derive. trivial. Qed.

(* ---- C50: the inner moments ---- *)
Theorem C50_cyl_mom : forall eps tpl L dens phih IR OR h1 h2, accurate eps tpl -> (0 <= L)%Z ->
  let bad := (h2 < h1 \/ OR < IR \/ phih = 0 \/ OR <= 0)%R in
  (bad -> num_cyl_mom tpl L dens phih IR OR h1 h2 = Err ValueError) /\
  (~ bad -> exists q, num_cyl_mom tpl L dens phih IR OR h1 h2 = Ok q /\ deg q = L /\ approx_inner eps q dens (ring_sector h1 h2 IR OR phih)).
Proof.
  intros eps tpl L dens phih IR OR h1 h2 HA HL bad. unfold bad. split; intros G.
  - unfold num_cyl_mom. guard_t.
  - apply not_or_and in G. destruct G as [G1 G]. apply not_or_and in G. destruct G as [G2 G]. apply not_or_and in G. destruct G as [G3 G4].
    unfold num_cyl_mom. guard_f. eexists. split; [reflexivity|].
    apply (cyl_inner phih (fun _ => IR) (fun _ => OR) (fun _ => h1) (fun _ => h2) eps tpl L dens); auto using cst_der, cst_cont.
Qed.
Theorem C50_cone_mom : forall eps tpl L dens phih IR OR H, accurate eps tpl -> (0 <= L)%Z ->
  let bad := (H <= 0 \/ OR < IR \/ phih = 0 \/ OR <= 0)%R in
  (bad -> num_cone_mom tpl L dens phih IR OR H = Err ValueError) /\
  (~ bad -> IR = OR -> num_cone_mom tpl L dens phih IR OR H = Err ZeroDivision) /\
  (~ bad -> IR <> OR -> exists q, num_cone_mom tpl L dens phih IR OR H = Ok q /\ deg q = L /\ approx_inner eps q dens (conical_sector H IR OR phih)).
Proof.
  intros eps tpl L dens phih IR OR H HA HL bad. unfold bad. split; [|split]; intros G.
  - unfold num_cone_mom. guard_t.
  - intros E. apply not_or_and in G. destruct G as [G1 G]. apply not_or_and in G. destruct G as [G2 G]. apply not_or_and in G. destruct G as [G3 G4].
    unfold num_cone_mom. guard_f. rewrite req_t by lra. reflexivity.
  - intros E. apply not_or_and in G. destruct G as [G1 G]. apply not_or_and in G. destruct G as [G2 G]. apply not_or_and in G. destruct G as [G3 G4].
    unfold num_cone_mom. guard_f. eexists. split; [reflexivity|].
    apply (cyl_inner phih (fun _ => IR) (fun _ => OR) (fun _ => 0%R) (fun r => (H * (OR - r) / (OR - IR))%R) eps tpl L dens); auto using cst_der, cst_cont.
    intros r. auto_derive. trivial.
Qed.
Theorem C50_trap_mom : forall eps tpl L dens phih IR OR h1 h2, accurate eps tpl -> (0 <= L)%Z ->
  let bad := (h2 < h1 \/ OR < IR \/ phih <= 0 \/ OR <= 0 \/ PI / 2 <= phih)%R in
  (bad -> num_trap_mom tpl L dens phih IR OR h1 h2 = Err ValueError) /\
  (~ bad -> exists q, num_trap_mom tpl L dens phih IR OR h1 h2 = Ok q /\ deg q = L /\ approx_inner eps q dens (wedge h1 h2 IR OR phih)).
Proof.
  intros eps tpl L dens phih IR OR h1 h2 HA HL bad. unfold bad. split; intros G.
  - unfold num_trap_mom. destruct (_ || _ || _ || _)%bool eqn:E; [reflexivity|]. apply orb4 in E. destruct E as (E1 & E2 & E3 & E4).
    unfold rlt, rle in *. destruct (Rlt_dec h2 h1), (Rlt_dec OR IR), (Rle_dec phih 0), (Rle_dec OR 0); try discriminate. destruct (Rle_dec (PI / 2) phih); [reflexivity|exfalso; lra].
  - apply not_or_and in G. destruct G as [G1 G]. apply not_or_and in G. destruct G as [G2 G]. apply not_or_and in G. destruct G as [G3 G]. apply not_or_and in G. destruct G as [G4 G5].
    unfold num_trap_mom. guard_f. eexists. split; [reflexivity|].
    apply (cyl_inner phih (fun th => (IR * cos phih / cos th)%R) (fun th => (OR * cos phih / cos th)%R) (fun _ => h1) (fun _ => h2) eps tpl L dens); auto using cst_der.
    + intros th Ht. apply wedge_cont; [lra|exact Ht].
    + intros th Ht. apply wedge_cont; [lra|exact Ht].
    + intros u. now rewrite cos_neg.
    + intros u. now rewrite cos_neg.
Qed.
Theorem C50_steinmetz : forall eps tpl L dens r Rad, accurate eps tpl -> (0 <= L)%Z ->
  let bad := (r <= 0 \/ Rad < r)%R in
  (bad -> num_steinmetz tpl L dens r Rad = Err ValueError) /\
  (~ bad -> exists q, num_steinmetz tpl L dens r Rad = Ok q /\ deg q = L /\ approx_inner eps q dens (drilled_core r Rad)).
Proof.
  intros eps tpl L dens r Rad HA HL bad. unfold bad. split; intros G.
  - unfold num_steinmetz. guard_t.
  - apply not_or_and in G. destruct G as [G1 G2]. unfold num_steinmetz. guard_f. eexists. split; [reflexivity|].
    destruct (cart_mono_y r (fun x => sqrt (r ^ 2 - x ^ 2)) (fun y => (- sqrt (Rad ^ 2 - y ^ 2))%R) (fun y => sqrt (Rad ^ 2 - y ^ 2))) as (mu & Hmu); auto using half_chord_cont.
    { intros y. apply cont_opp, half_chord_cont. }
    apply (cart_inner r (fun x => sqrt (r ^ 2 - x ^ 2)) (fun _ y => (- sqrt (Rad ^ 2 - y ^ 2))%R) (fun _ y => sqrt (Rad ^ 2 - y ^ 2)) eps tpl L dens mu); auto.
    + intros _ v. do 2 f_equal. ring.
    + intros _ v. do 1 f_equal. ring.
Qed.
Theorem C50_platehole : forall eps tpl L dens t r theta, accurate eps tpl -> (0 <= L)%Z ->
  let bad := (r <= 0 \/ PI / 2 <= theta \/ t <= 0)%R in
  (bad -> num_platehole tpl L dens t r theta = Err ValueError) /\
  (~ bad -> cos theta = 0%R -> num_platehole tpl L dens t r theta = Err NotFinite) /\
  (~ bad -> cos theta <> 0%R -> exists q, num_platehole tpl L dens t r theta = Ok q /\ deg q = L /\ approx_inner eps q dens (oblique_core t r theta)).
Proof.
  intros eps tpl L dens t r theta HA HL bad. unfold bad. split; [|split]; intros G.
  - unfold num_platehole. guard_t.
  - intros E. apply not_or_and in G. destruct G as [G1 G]. apply not_or_and in G. destruct G as [G2 G3]. unfold num_platehole. guard_f. rewrite req_t by exact E. reflexivity.
  - intros E. apply not_or_and in G. destruct G as [G1 G]. apply not_or_and in G. destruct G as [G2 G3]. unfold num_platehole. guard_f.
    try rewrite req_f by exact E. cbv zeta. eexists. split; [reflexivity|].
    destruct (cart_mono_x r (fun x => sqrt (r ^ 2 - x ^ 2)) (fun x => (x * tan theta - t / cos theta / 2)%R) (fun x => (x * tan theta + t / cos theta / 2)%R)) as (mu & Hmu); auto using half_chord_cont.
    { intros x. apply cont_der. auto_derive. trivial. }
    { intros x. apply cont_der. auto_derive. trivial. }
    apply (cart_inner r (fun x => sqrt (r ^ 2 - x ^ 2)) (fun x _ => (x * tan theta - t / cos theta / 2)%R) (fun x _ => (x * tan theta + t / cos theta / 2)%R) eps tpl L dens mu); auto.
Qed.

(* ---- C51: the outer moments ---- *)
Theorem C51_annulus : forall eps tpl L dens h1 h2 IR OR phih, accurate eps tpl -> (0 <= L)%Z ->
  let bad := (h2 < h1 \/ OR < IR \/ phih <= 0 \/ OR <= 0 \/ PI < phih \/ (h1 <= 0 /\ 0 <= h2 /\ IR <= 0))%R in
  (bad -> bignum_annulus tpl L dens h1 h2 IR OR phih = Err ValueError) /\
  (~ bad -> exists q, bignum_annulus tpl L dens h1 h2 IR OR phih = Ok q /\ deg q = L /\ approx_outer eps q dens (ring_sector h1 h2 IR OR phih)).
Proof.
  intros eps tpl L dens h1 h2 IR OR phih HA HL bad. unfold bad. split; intros G.
  - unfold bignum_annulus, rlt, rle. destruct (Rlt_dec h2 h1), (Rlt_dec OR IR), (Rle_dec phih 0), (Rle_dec OR 0), (Rlt_dec PI phih); cbn [orb]; try reflexivity.
    destruct (Rle_dec h1 0), (Rle_dec 0 h2), (Rle_dec IR 0); cbn [andb]; try reflexivity; exfalso; lra.
  - assert (G1 : (h1 <= h2 /\ IR <= OR /\ 0 < phih /\ 0 < OR /\ phih <= PI)%R) by (repeat split; apply Rnot_lt_le || apply Rnot_le_lt; tauto).
    destruct G1 as (G1 & G2 & G3 & G4 & G5). assert (G6 : ~ (h1 <= 0 /\ 0 <= h2 /\ IR <= 0)%R) by tauto. clear G.
    unfold bignum_annulus. guard_f. replace (rle h1 0 && rle 0 h2 && rle IR 0)%bool with false.
    2:{ unfold rle. destruct (Rle_dec h1 0), (Rle_dec 0 h2), (Rle_dec IR 0); cbn [andb]; try reflexivity; tauto. }
    eexists. split; [reflexivity|].
    apply (outer_gen phih (fun _ => IR) (fun _ => OR) (fun _ => h1) (fun _ => h2) eps tpl L dens); auto. intros l m Hm.
    destruct (Rlt_dec 0 IR) as [P|P].
    + apply cyl_outer_int; auto using cst_der.
      * intros _. left. apply Rmult_lt_0_compat; assumption.
      * intros th _. auto using cst_cont.
    + apply off_int; auto using cst_cont. lra.
Qed.
Theorem C51_trapezoid : forall eps tpl L dens h1 h2 IR OR phih, accurate eps tpl -> (0 <= L)%Z ->
  let bad := (h2 < h1 \/ OR < IR \/ phih <= 0 \/ OR <= 0 \/ PI / 2 <= phih \/ (h1 <= 0 /\ 0 <= h2 /\ IR <= 0))%R in
  (bad -> bignum_trapezoid tpl L dens h1 h2 IR OR phih = Err ValueError) /\
  (~ bad -> exists q, bignum_trapezoid tpl L dens h1 h2 IR OR phih = Ok q /\ deg q = L /\ approx_outer eps q dens (wedge h1 h2 IR OR phih)).
Proof.
  intros eps tpl L dens h1 h2 IR OR phih HA HL bad. unfold bad. split; intros G.
  - unfold bignum_trapezoid, rlt, rle. destruct (Rlt_dec h2 h1), (Rlt_dec OR IR), (Rle_dec phih 0), (Rle_dec OR 0); cbn [orb]; try reflexivity.
    destruct (Rle_dec h1 0), (Rle_dec 0 h2), (Rle_dec IR 0), (Rle_dec (PI / 2) phih); cbn [andb orb]; try reflexivity; exfalso; lra.
  - assert (G1 : (h1 <= h2 /\ IR <= OR /\ 0 < phih /\ 0 < OR /\ phih < PI / 2)%R) by (repeat split; apply Rnot_lt_le || apply Rnot_le_lt; tauto).
    destruct G1 as (G1 & G2 & G3 & G4 & G5). assert (G6 : ~ (h1 <= 0 /\ 0 <= h2 /\ IR <= 0)%R) by tauto. clear G.
    unfold bignum_trapezoid. guard_f. replace (rle h1 0 && rle 0 h2 && rle IR 0)%bool with false.
    2:{ unfold rle. destruct (Rle_dec h1 0), (Rle_dec 0 h2), (Rle_dec IR 0); cbn [andb]; try reflexivity; tauto. }
    cbn [orb]. rewrite rle_f by lra. eexists. split; [reflexivity|].
    apply (outer_gen phih (fun th => (IR * cos phih / cos th)%R) (fun th => (OR * cos phih / cos th)%R) (fun _ => h1) (fun _ => h2) eps tpl L dens); auto.
    2:{ intros u. now rewrite cos_neg. }
    2:{ intros u. now rewrite cos_neg. }
    intros l m Hm. destruct (Rlt_dec 0 IR) as [P|P].
    + apply cyl_outer_int; auto using cst_der.
      * intros th. destruct (Req_dec (cos th) 0) as [E0|E0].
        -- right. rewrite E0. unfold Rdiv. now rewrite Rinv_0, !Rmult_0_r.
        -- left. assert (C0 : (0 < cos phih)%R) by (apply cos_gt_0; lra).
           replace (IR * cos phih / cos th * (OR * cos phih / cos th))%R with (IR * OR * (cos phih / cos th * (cos phih / cos th)))%R by (field; exact E0).
           apply Rmult_lt_0_compat; [now apply Rmult_lt_0_compat|]. apply Rsqr_pos_lt. unfold Rdiv. apply Rmult_integral_contrapositive_currified; [lra|now apply Rinv_neq_0_compat].
      * intros th Ht. split; [|split; [|split]].
        -- apply wedge_pos; lra.
        -- apply wedge_pos; lra.
        -- apply wedge_cont; lra.
        -- apply wedge_cont; lra.
    + apply off_int; auto; [lra|]. intros th Ht. split; (apply wedge_cont; [lra|exact Ht]).
Qed.
Theorem C51_outer_cone : forall eps tpl L dens H IR OR phih, accurate eps tpl -> (0 <= L)%Z ->
  let bad := (H <= 0 \/ OR < IR \/ phih <= 0 \/ OR <= 0 \/ PI < phih)%R in
  (bad -> bignum_cone tpl L dens H IR OR phih = Err ValueError) /\
  (~ bad -> IR = OR -> bignum_cone tpl L dens H IR OR phih = Err ZeroDivision) /\
  (~ bad -> IR <> OR -> (0 < IR)%R -> exists q, bignum_cone tpl L dens H IR OR phih = Ok q /\ deg q = L /\ approx_outer eps q dens (conical_sector H IR OR phih)).
Proof.
  intros eps tpl L dens H IR OR phih HA HL bad. unfold bad. split; [|split]; intros G.
  - unfold bignum_cone. guard_t.
  - intros E. assert (G1 : (0 < H /\ IR <= OR /\ 0 < phih /\ 0 < OR /\ phih <= PI)%R) by (repeat split; apply Rnot_lt_le || apply Rnot_le_lt; tauto).
    destruct G1 as (G1 & G2 & G3 & G4 & G5). unfold bignum_cone. guard_f. rewrite req_t by lra. reflexivity.
  - intros E P. assert (G1 : (0 < H /\ IR <= OR /\ 0 < phih /\ 0 < OR /\ phih <= PI)%R) by (repeat split; apply Rnot_lt_le || apply Rnot_le_lt; tauto).
    destruct G1 as (G1 & G2 & G3 & G4 & G5). unfold bignum_cone. guard_f. eexists. split; [reflexivity|].
    apply (outer_gen phih (fun _ => IR) (fun _ => OR) (fun _ => 0%R) (fun r => (H * (OR - r) / (OR - IR))%R) eps tpl L dens); auto. intros l m Hm.
    apply cyl_outer_int; auto using cst_der.
    + intros r. auto_derive. trivial.
    + intros _. left. now apply Rmult_lt_0_compat.
    + intros th _. auto using cst_cont.
Qed.
(* a cone reaching the axis contains points arbitrarily near the origin, yet is accepted by the guard *)
Theorem C51_outer_cone_reaching_origin : forall tpl L dens H IR OR phih, (0 < H)%R -> (IR <= 0 < OR)%R -> (0 < phih <= PI)%R ->
  exists q, bignum_cone tpl L dens H IR OR phih = Ok q.
Proof. intros tpl L dens H IR OR phih HH HI HP. unfold bignum_cone. guard_f. eauto. Qed.

(* ---- C52: the closed forms against the numerical integration ---- *)
Lemma ring_annular h H Ri Ro phih f I : h = (H / 2)%R -> ring_sector (- h) h Ri Ro phih f I <-> annular_sector H Ri Ro 0 phih f I.
Proof.
  intros ->. unfold ring_sector, annular_sector. rewrite Rminus_0_l, Rplus_0_l. replace (- H / 2)%R with (- (H / 2))%R by field. tauto.
Qed.
Lemma annular_volume H Ri Ro phic phih : annular_sector H Ri Ro phic phih (fun _ _ _ => 1) (RtoC (phih * (Ro ^ 2 - Ri ^ 2) * H)).
Proof.
  exists (fun _ r => RtoC (r * H)), (fun _ => RtoC (H * (Ro ^ 2 - Ri ^ 2) / 2)). 
  assert (KC : forall a b c d : R, ((b - a) * c = d)%R -> is_CInt (fun _ => RtoC c) a b (RtoC d)).
  { intros a b c d <-. apply is_CInt_real. apply (is_RInt_const (V := R_NormedModule)). }
  split; [|split].
  - intros ph r. apply (is_CInt_ext (fun _ => RtoC r)); [intros; ring|]. apply KC. field.
  - intros ph. apply is_CInt_real. replace (H * (Ro ^ 2 - Ri ^ 2) / 2)%R with (Ro ^ 2 * H / 2 - Ri ^ 2 * H / 2)%R by field.
    apply (is_RInt_derive (V := R_CompleteNormedModule) (fun r => (r ^ 2 * H / 2)%R) (fun r => (r * H)%R)).
    + intros r _. auto_derive; [trivial|]. field.
    + intros r _. apply cont_der. auto_derive. trivial.
  - apply KC. field.
Qed.
Theorem C52_annulus : forall eps tpl L dens H Ri Ro phih q q', accurate eps tpl -> (0 <= L)%Z ->
  annulus L (dens * (phih * (Ro ^ 2 - Ri ^ 2) * H)) H Ri Ro 0 phih = Ok q ->
  num_cyl_mom tpl L dens phih Ri Ro (- (H / 2)) (H / 2) = Ok q' ->
  forall l m, (0 <= l <= L)%Z -> (Z.abs m <= l)%Z -> (Cmod (mom q' l m - mom q l m)%C <= Rabs dens * eps)%R.
Proof.
  intros eps tpl L dens H Ri Ro phih q q' HA HL E E' l m Hl Hm.
  destruct (annulus_body _ _ _ _ _ _ _ _ HL E) as [D (V & V0 & HV & HM & _)]. assert (RB := regular_annular H Ri Ro 0 phih).
  assert (EV := reg_unique _ RB _ _ _ HV (annular_volume H Ri Ro 0 phih)). apply RtoC_inj in EV.
  destruct (HM l m ltac:(lia) Hm) as (I & HI & ->).
  destruct (C50_cyl_mom eps tpl L dens phih Ri Ro (- (H / 2))%R (H / 2)%R HA HL) as [K1 K2]. 
  destruct (Classical_Prop.classic (H / 2 < - (H / 2) \/ Ro < Ri \/ phih = 0 \/ Ro <= 0)%R) as [B|B]; [rewrite (K1 B) in E'; discriminate|].
  destruct (K2 B) as (q2 & E2 & D2 & AI & _). rewrite E2 in E'. apply Ok_inj in E'. subst q2.
  destruct (AI l m ltac:(lia) Hm) as (I' & HI' & BD). apply (ring_annular _ H) in HI'; [|reflexivity].
  rewrite (reg_unique _ RB _ _ _ HI HI'). replace (dens * (phih * (Ro ^ 2 - Ri ^ 2) * H) / V)%R with dens; [exact BD|]. rewrite <- EV. field. exact V0.
Qed.
Theorem C52_outer_annulus : forall eps tpl L dens H r0 r1 phih Q Q', accurate eps tpl -> (0 <= L)%Z -> (0 < H)%R ->
  big_annulus L dens H r0 r1 0 phih = Ok Q -> bignum_annulus tpl L dens 0 H r0 r1 phih = Ok Q' ->
  forall l m, (0 <= l <= L)%Z -> (l <= 5)%Z -> (Z.abs m <= l)%Z -> (l, Z.abs m) <> (2, 0)%Z -> (l, Z.abs m) <> (5, 3)%Z ->
  (Cmod (mom Q' l m - mom Q l m)%C <= Rabs dens * eps)%R.
Proof.
  intros eps tpl L dens H r0 r1 phih Q Q' HA HL HH E E' l m Hl H5 Hm N1 N2.
  destruct (C48_annulus _ _ _ _ _ _ _ _ HL E) as (D & HM & _). destruct (HM l m Hl H5 Hm N1 N2) as (I & HI & ->).
  assert (RB := regular_standing H r0 r1 (- 0) phih).
  destruct (C51_annulus eps tpl L dens 0 H r0 r1 phih HA HL) as [K1 K2].
  match type of K1 with ?b -> _ => destruct (Classical_Prop.classic b) as [B|B] end; [rewrite (K1 B) in E'; discriminate|].
  destruct (K2 B) as (q2 & E2 & D2 & AI & _). rewrite E2 in E'. apply Ok_inj in E'. subst q2.
  destruct (AI l m ltac:(lia) Hm) as (I' & HI' & BD).
  assert (HI2 : standing_sector H r0 r1 (- 0) phih (fun x y z => isolid l m (x, y, z)) I').
  { unfold standing_sector, ring_sector in *. rewrite Rmin_left, Rmax_right by lra. replace (- 0 - phih)%R with (- phih)%R by ring. replace (- 0 + phih)%R with phih by ring. exact HI'. }
  now rewrite (reg_unique _ RB _ _ _ HI HI2).
Qed.

(* ---- the hypotheses can be met: iterated Riemann integration is accurate to 0 ---- *)
Definition exact_tpl : integrator := fun func a b gfun hfun qfun rfun =>
  RInt (fun x => RInt (fun y => RInt (fun z => func z y x) (qfun x y) (rfun x y)) (gfun x) (hfun x)) a b.
Lemma exact_accurate eps : (0 <= eps)%R -> accurate eps exact_tpl.
Proof.
  intros He func a b gfun hfun qfun rfun v (g & h & H1 & H2 & H3). unfold exact_tpl.
  assert (E1 : forall x y, RInt (fun z => func z y x) (qfun x y) (rfun x y) = Re (g x y)).
  { intros x y. apply (is_RInt_unique (V := R_CompleteNormedModule)). exact (proj1 (H1 x y)). }
  assert (E2 : forall x, RInt (fun y => RInt (fun z => func z y x) (qfun x y) (rfun x y)) (gfun x) (hfun x) = Re (h x)).
  { intros x. apply (is_RInt_unique (V := R_CompleteNormedModule)). eapply is_RInt_ext; [|exact (proj1 (H2 x))]. intros y _. symmetry. apply E1. }
  rewrite (is_RInt_unique (V := R_CompleteNormedModule) _ a b v).
  - rewrite Rminus_diag_eq, Rabs_R0 by reflexivity. exact He.
  - eapply is_RInt_ext; [|exact (proj1 H3)]. intros x _. symmetry. apply E2.
Qed.
Example C50_case : exists q, num_trap_mom exact_tpl 3 2 (PI / 4) 1 2 (-1) 1 = Ok q /\ deg q = 3%Z /\ approx_inner 0 q 2 (wedge (-1) 1 1 2 (PI / 4)).
Proof.
  assert (HP := PI_RGT_0). apply (C50_trap_mom 0 exact_tpl 3 2 (PI / 4) 1 2 (-1) 1); [apply exact_accurate; lra|lia|]. lra.
Qed.
Example C50_case_wrong : num_trap_mom exact_tpl 3 2 (PI / 2) 1 2 (-1) 1 = Err ValueError.
Proof. assert (HP := PI_RGT_0). apply (C50_trap_mom 0 exact_tpl 3 2 (PI / 2) 1 2 (-1) 1); [apply exact_accurate; lra|lia|]. lra. Qed.
Example C51_case : exists q, bignum_annulus exact_tpl 3 2 1 2 0 1 PI = Ok q /\ deg q = 3%Z /\ approx_outer 0 q 2 (ring_sector 1 2 0 1 PI).
Proof.
  assert (HP := PI_RGT_0). apply (C51_annulus 0 exact_tpl 3 2 1 2 0 1 PI); [apply exact_accurate; lra|lia|]. lra.
Qed.
Example C52_case : exists q q', annulus 3 (2 * (PI / 4 * (2 ^ 2 - 1 ^ 2) * 2)) 2 1 2 0 (PI / 4) = Ok q /\ num_cyl_mom exact_tpl 3 2 (PI / 4) 1 2 (- (2 / 2)) (2 / 2) = Ok q'.
Proof.
  assert (HP := PI_RGT_0). destruct (C35_annulus 3 (2 * (PI / 4 * (2 ^ 2 - 1 ^ 2) * 2)) 2 1 2 0 (PI / 4)) as (q & E & _); try lia; try lra.
  destruct (C50_cyl_mom 0 exact_tpl 3 2 (PI / 4) 1 2 (- (2 / 2)) (2 / 2)) as [_ K]; [apply exact_accurate; lra|lia|]. destruct K as (q' & E' & _); [lra|]. eauto.
Qed.
Print Assumptions C50_cyl_mom.
Print Assumptions C50_cone_mom.
Print Assumptions C50_trap_mom.
Print Assumptions C50_steinmetz.
Print Assumptions C50_platehole.
Print Assumptions C51_annulus.
Print Assumptions C51_trapezoid.
Print Assumptions C51_outer_cone.
Print Assumptions C51_outer_cone_reaching_origin.
Print Assumptions C52_annulus.
Print Assumptions C52_outer_annulus.
