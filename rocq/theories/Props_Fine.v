(* C78: how fine a point-mass array must be: bounds on its error with every constant written out. *)
From Coq Require Import Reals Lra Lia List ZArith.
From Coquelicot Require Import Coquelicot.
From Verif Require Import Glib GlibSpec GlibProofs NewtonSpec Newton MomentSpec Pg2MultiProofs Addition Irreg2 SolidSpec ShapeSpec BodySpec FloatSpec Props_Float Props_Float3 GlibShapes PointSpec Props_GlibShapes RefineSpec Props_Refine FineSpec Fine2 Fine3 Fine4 Fine5 Pg2Multi Props_Moments Translations SolidSpec Qlm Props_Qlm QlmProofs QlmProofs3 Props_Shapes2 Pg2MultiProofs ShapeSpec.
From Verif Require Import Cplx.
From Verif Require Import Refine.
Import ListNotations.
Open Scope R_scope.

(* ---- a function that does not change much ---- *)
Theorem C78_integral : forall pts D r M delta K f, gridded pts D r M delta -> 0 <= K -> lip K f ->
  exists I, D (fun x y z => RtoC (f (x, y, z))) (RtoC I) /\ Rabs (weighed f pts - I) <= K * delta.
Proof. intros pts D r M delta K f H HK HL. destruct (gridded_sound _ _ _ _ _ H) as (_ & _ & _ & _ & _ & _ & J & J1 & _). exists (J f). exact (J1 K f HK HL). Qed.
Print Assumptions C78_integral.

(* ---- the moments ---- *)
(* PG2Multi.qmoments on the array: the moment of degree l is within 2 l sqrt((2 l + 1) / 4 pi) r^(l-1) delta of that of the solid *)
Theorem C78_moments : forall pts D r M delta q, gridded pts D r M delta -> 0 < r -> (0 <= deg q)%Z -> moments_of q D -> ~ origin_before_other pts ->
  exists qp, qmoments (deg q) pts = Ok qp /\ deg qp = deg q /\ forall l m, (0 <= l <= deg q)%Z -> (Z.abs m <= l)%Z ->
    Cmod (mom qp l m - mom q l m)%C <= 2 * IZR l * sqrt ((2 * IZR l + 1) / (4 * PI)) * r ^ Z.to_nat (l - 1) * delta.
Proof.
  intros pts D r M delta q H Hr HL (HM & _) Ho. destruct (C08_qmoments (deg q) pts HL Ho) as (qp & E & Dq & HH). exists qp. split; [exact E|]. split; [exact Dq|]. intros l m Hl Hm.
  assert (EM : mom qp l m = inner_moment pts l m) by (apply HH; [rewrite Dq; lia|exact Hm]). rewrite EM. apply (moment_close pts D r M delta l m (mom q l m) H Hr); [lia|exact Hm|now apply HM].
Qed.
Print Assumptions C78_moments.

(* ---- the weights ---- *)
Lemma slope (f f' : R -> R) d K : 0 < d -> (forall a, 0 < a -> is_derive f a (f' a)) -> (forall a, d <= a -> Rabs (f' a) <= K) -> forall a b, d <= a -> d <= b -> Rabs (f a - f b) <= K * Rabs (a - b).
Proof.
  intros Hd D B. assert (G : forall a b, d <= a -> a < b -> Rabs (f a - f b) <= K * Rabs (a - b)).
  { intros a b Ha Hab. destruct (MVT_cor2 f f' a b Hab) as (c & E & Hc). { intros c Hc. apply is_derive_Reals, D. lra. }
    rewrite Rabs_minus_sym, (Rabs_minus_sym a b), E, Rabs_mult. apply Rmult_le_compat_r; [apply Rabs_pos|]. apply B. lra. }
  intros a b Ha Hb. destruct (Rtotal_order a b) as [H|[->|H]].
  - now apply G.
  - unfold Rminus. rewrite !Rplus_opp_r, Rabs_R0. lra.
  - rewrite Rabs_minus_sym, (Rabs_minus_sym a b). now apply G.
Qed.
Lemma cube_le d a : 0 < d -> d <= a -> 2 / a ^ 3 <= 2 / d ^ 3.
Proof. intros Hd Ha. apply Rmult_le_compat_l; [lra|]. apply Rinv_le_contravar; [now apply pow_lt|]. apply pow_incr. lra. Qed.
Lemma newton_w0 a : 0 < a -> 0 <= / a ^ 3 <= / a ^ 3.
Proof. intros Ha. split; [left; apply Rinv_0_lt_compat, pow_lt, Ha|lra]. Qed.
Lemma newton_w1 d : 0 < d -> forall a b, d <= a -> d <= b -> Rabs (a * / a ^ 3 - b * / b ^ 3) <= 2 / d ^ 3 * Rabs (a - b).
Proof.
  intros Hd. apply (slope (fun a => a * / a ^ 3) (fun a => - (2 / a ^ 3)) d); [exact Hd| |].
  - intros a Ha. auto_derive; [apply Rgt_not_eq, Rmult_lt_0_compat; [exact Ha|]; assert (0 < a * a) by nra; lra|]. field. lra.
  - intros a Ha. rewrite Rabs_Ropp, Rabs_pos_eq by (left; apply Rdiv_lt_0_compat; [lra|apply pow_lt; lra]). now apply cube_le.
Qed.
Lemma exp_two u : 0 <= u -> 1 + u + u ^ 2 / 2 <= exp u.
Proof.
  intros [Hu|<-]; [|rewrite exp_0; lra]. destruct (MVT_cor2 (fun x => exp x - (1 + x + x ^ 2 / 2)) (fun x => exp x - (1 + x)) 0 u Hu) as (c & E & Hc).
  { intros c _. apply is_derive_Reals. auto_derive; [exact I|]. field. }
  cbv beta in E. rewrite exp_0 in E. assert (P := exp_ineq1_le c). assert (0 <= (exp c - (1 + c)) * (u - 0)) by (apply Rmult_le_pos; lra). lra.
Qed.
Definition Wy (lambda a : R) : R := (1 + a / lambda) * exp (- (a / lambda)) * / a ^ 3.
Lemma yuk_w0 lambda : 0 < lambda -> forall a, 0 < a -> 0 <= Wy lambda a <= / a ^ 3.
Proof.
  intros Hl a Ha. unfold Wy. assert (P : 0 < / a ^ 3) by (apply Rinv_0_lt_compat, pow_lt, Ha). assert (U : 0 < a / lambda) by now apply Rdiv_lt_0_compat. set (u := a / lambda) in *. assert (X := exp_pos (- u)). split; [apply Rmult_le_pos; [apply Rmult_le_pos; lra|lra]|].
  rewrite <- (Rmult_1_l (/ a ^ 3)) at 2. apply Rmult_le_compat_r; [lra|]. apply Rle_trans with (exp u * exp (- u)); [apply Rmult_le_compat_r; [lra|apply exp_ineq1_le]|]. rewrite <- exp_plus. replace (u + - u) with 0 by ring. rewrite exp_0. lra.
Qed.
Lemma yuk_w1 lambda d : 0 < lambda -> 0 < d -> forall a b, d <= a -> d <= b -> Rabs (a * Wy lambda a - b * Wy lambda b) <= 2 / d ^ 3 * Rabs (a - b).
Proof.
  intros Hl Hd. apply (slope (fun a => a * Wy lambda a) (fun a => - (exp (- (a / lambda)) * (2 + 2 * (a / lambda) + (a / lambda) ^ 2) / a ^ 3)) d); [exact Hd| |].
  - intros a Ha. unfold Wy. auto_derive; [apply Rgt_not_eq, Rmult_lt_0_compat; [exact Ha|]; assert (0 < a * a) by nra; lra|]. unfold Rdiv. field. lra.
  - intros a Ha. assert (U : 0 < a / lambda) by (apply Rdiv_lt_0_compat; lra). set (u := a / lambda) in *. assert (X := exp_pos (- u)). assert (A3 : 0 < / a ^ 3) by (apply Rinv_0_lt_compat, pow_lt; lra).
    assert (Q : 0 < 2 + 2 * u + u ^ 2) by nra. rewrite Rabs_Ropp, Rabs_pos_eq by (apply Rmult_le_pos; [apply Rmult_le_pos|]; lra). apply Rle_trans with (2 / a ^ 3); [|now apply cube_le].
    apply Rmult_le_compat_r; [lra|]. assert (T := exp_two u ltac:(lra)). assert (E : exp u * exp (- u) = 1) by (rewrite <- exp_plus; replace (u + - u) with 0 by ring; apply exp_0). 
    assert (exp (- u) * (2 + 2 * u + u ^ 2) <= exp (- u) * (2 * exp u)) by (apply Rmult_le_compat_l; lra). lra.
Qed.

(* ---- two arrays ---- *)
Lemma along_size i : vnorm (along i) <= 1.
Proof. destruct i; unfold along; rewrite vnorm_xyz; [replace (1 ^ 2 + 0 ^ 2 + 0 ^ 2) with 1 by ring|replace (0 ^ 2 + 1 ^ 2 + 0 ^ 2) with 1 by ring|replace (0 ^ 2 + 0 ^ 2 + 1 ^ 2) with 1 by ring]; rewrite sqrt_1; lra. Qed.
Lemma cross_size i v : vnorm (vcross (along i) v) <= vnorm v.
Proof. destruct v as [[x y] z]. assert (A := pow2_ge_0 x). assert (B := pow2_ge_0 y). assert (E := pow2_ge_0 z). destruct i; unfold along, vcross; rewrite !vnorm_xyz; apply sqrt_le_1; nra. Qed.
Lemma cross_sub i v w : vsub (vcross (along i) v) (vcross (along i) w) = vcross (along i) (vsub v w).
Proof. destruct i, v as [[? ?] ?], w as [[? ?] ?]; unfold along, vcross, vsub; apply v3; ring. Qed.
Lemma lip_factor A K f : lip K f -> lip (Rabs A * K) (fun v => A * f v).
Proof. intros H v w. cbv beta. rewrite <- Rmult_minus_distr_l, Rabs_mult, Rmult_assoc. apply Rmult_le_compat_l; [apply Rabs_pos|apply H]. Qed.
Section Two.
Variables (W : R -> R) (A gap : R).
Hypotheses (Hg : 0 < gap) (W0 : forall a, 0 < a -> 0 <= W a <= / a ^ 3) (W1 : forall a b, gap <= a -> gap <= b -> Rabs (a * W a - b * W b) <= 2 / gap ^ 3 * Rabs (a - b)).
Variables (pts : list pt) (D1 : body) (r1 M1 d1 : R) (qts : list pt) (D2 : body) (r2 M2 d2 : R) (t : vec).
Hypotheses (C1 : close_to pts D1 r1 M1 d1) (C2 : close_to qts D2 r2 M2 d2) (Hr : 0 < r1) (Hs : r1 + r2 + gap <= vnorm t).
Let k : vec -> vec -> vec -> R := wk (fun x => A * W x).
Lemma one_component (e : vec -> vec) (E0 E1 : R) : 0 <= E0 -> 0 <= E1 -> (forall v, vnorm (e v) <= E0) -> (forall v w, vnorm (vsub (e v) (e w)) <= E1 * vnorm (vsub v w)) ->
  exists J, pair_integral D1 r1 D2 r2 (fun v w => k (e v) v (vadd w t)) J /\
    Rabs (lsr (fun p => lsr (fun s => pm p * pm s * k (e (pp p)) (pp p) (vadd (pp s) t)) qts) pts - J) <= M1 * (Rabs A * (E0 * (2 / gap ^ 3))) * d2 + M2 * (Rabs A * (E1 * / gap ^ 2 + E0 * (2 / gap ^ 3))) * d1.
Proof.
  intros P0 P1 H0 H1. assert (G3 : 0 < / gap ^ 3) by (apply Rinv_0_lt_compat, pow_lt, Hg). assert (G2 : 0 < / gap ^ 2) by (apply Rinv_0_lt_compat, pow_lt, Hg). assert (PA := Rabs_pos A).
  assert (N2 : 0 <= E0 * (2 / gap ^ 3)) by (apply Rmult_le_pos; [exact P0|unfold Rdiv; lra]). assert (N1 : 0 <= E1 * / gap ^ 2) by (apply Rmult_le_pos; lra).
  apply (pair_close pts D1 r1 M1 d1 qts D2 r2 M2 d2 (fun v w => k (e v) v (vadd w t)) (fun v w => A * Fk W gap e t v w)); [exact C1|exact C2|apply Rmult_le_pos; lra|apply Rmult_le_pos; lra| | |].
  - intros v. apply lip_factor. now apply Fk_second.
  - intros w. apply (lip_factor A _ (fun v => Fk W gap e t v w)). now apply Fk_first.
  - intros v w Hv Hw. unfold Fk. assert (FG := far_gap v w t r1 r2 Hv Hw). rewrite hd_far by lra. unfold k, wk. destruct (e v) as [[? ?] ?], (vsub (vadd w t) v) as [[? ?] ?] eqn:EE. unfold vdot, vscal. ring.
Qed.
Variables (w : R -> R -> R -> R).
Hypothesis Hw : forall m1 m2 d, 0 < d -> w m1 m2 d = BIG_G * (m1 * m2 * (A * W d)).
Lemma attract_close : exists F T, interaction k D1 r1 D2 r2 t F T /\
    let qts' := map (fun p => mkpt (pm p) (vadd (pp p) t)) qts in
    apart_all pts qts' /\ vclose (BIG_G * (Rabs A * (2 / gap ^ 3 * (M1 * d2 + M2 * d1)))) (totF w pts qts') (vscal BIG_G F) /\
    vclose (BIG_G * (Rabs A * (2 * r1 / gap ^ 3 * (M1 * d2 + M2 * d1) + M2 * d1 / gap ^ 2))) (totT w pts qts') (vscal BIG_G T).
Proof.
  assert (HG : 0 < BIG_G) by (unfold BIG_G; lra).
  assert (KF : forall i, exists J, pair_integral D1 r1 D2 r2 (fun v w => k (along i) v (vadd w t)) J /\
    Rabs (lsr (fun p => lsr (fun s => pm p * pm s * k (along i) (pp p) (vadd (pp s) t)) qts) pts - J) <= Rabs A * (2 / gap ^ 3 * (M1 * d2 + M2 * d1))).
  { intros i. destruct (one_component (fun _ => along i) 1 0) as (J & IJ & BJ); [lra|lra|intros _; apply along_size| |].
    - intros v v'. rewrite Rmult_0_l. replace (vsub (along i) (along i)) with v0 by (destruct i; unfold v0, vsub, along; apply v3; ring). unfold v0. rewrite vnorm_xyz. replace (0 ^ 2 + 0 ^ 2 + 0 ^ 2) with 0 by ring. rewrite sqrt_0. lra.
    - exists J. split; [exact IJ|]. eapply Rle_trans; [exact BJ|]. right. unfold Rdiv. ring. }
  assert (KT : forall i, exists J, pair_integral D1 r1 D2 r2 (fun v w => k (vcross (along i) v) v (vadd w t)) J /\
    Rabs (lsr (fun p => lsr (fun s => pm p * pm s * k (vcross (along i) (pp p)) (pp p) (vadd (pp s) t)) qts) pts - J) <= Rabs A * (2 * r1 / gap ^ 3 * (M1 * d2 + M2 * d1) + M2 * d1 / gap ^ 2)).
  { intros i. destruct (one_component (fun v => vcross (along i) (into r1 v)) r1 1) as (J & IJ & BJ); [lra|lra| | |].
    - intros v. eapply Rle_trans; [apply cross_size|]. rewrite into_size by exact Hr. apply Rmin_r.
    - intros v v'. rewrite cross_sub, Rmult_1_l. eapply Rle_trans; [apply cross_size|]. now apply into_lip.
    - exists J. split; [eapply pair_kernel; [|exact IJ]; intros v v' Hv _; cbv beta; now rewrite into_in|].
      replace (lsr _ pts) with (lsr (fun p => lsr (fun s => pm p * pm s * k (vcross (along i) (into r1 (pp p))) (pp p) (vadd (pp s) t)) qts) pts).
      + eapply Rle_trans; [exact BJ|]. right. unfold Rdiv. ring.
      + apply lsr_ext. intros p Hp. apply lsr_ext. intros s _. rewrite into_in; [reflexivity|exact Hr|]. destruct C1 as (_ & _ & _ & _ & _ & B & _). now apply B. }
  destruct (KF AX) as (Fx & FX & LFX). destruct (KF AY) as (Fy & FY & LFY). destruct (KF AZ) as (Fz & FZ & LFZ).
  destruct (KT AX) as (Tx & TX & LTX). destruct (KT AY) as (Ty & TY & LTY). destruct (KT AZ) as (Tz & TZ & LTZ).
  exists (Fx, Fy, Fz), (Tx, Ty, Tz). split; [split; intros [| |]; assumption|]. intros qts'.
  destruct C1 as (_ & _ & _ & _ & _ & B1 & _). destruct C2 as (_ & _ & _ & _ & _ & B2 & _).
  assert (AP := far_apart r1 r2 t ltac:(lra) pts qts B1 B2). fold qts' in AP. split; [exact AP|].
  assert (LIFT : forall a b c eps, a = BIG_G * b -> Rabs (b - c) <= eps -> Rabs (a - BIG_G * c) <= BIG_G * eps).
  { intros a b c eps -> Q. replace (BIG_G * b - BIG_G * c) with (BIG_G * (b - c)) by ring. rewrite Rabs_mult, (Rabs_pos_eq BIG_G) by lra. apply Rmult_le_compat_l; lra. }
  assert (POS : forall p q, In p pts -> In q qts -> 0 < vnorm (vsub (vadd (pp q) t) (pp p))). { intros p q Hp Hq. assert (G := far_gap (pp p) (pp q) t r1 r2 (B1 p Hp) (B2 q Hq)). lra. }
  assert (EF : forall i, co i (totF w pts qts') = BIG_G * lsr (fun p => lsr (fun s => pm p * pm s * k (along i) (pp p) (vadd (pp s) t)) qts) pts).
  { intros i. unfold totF. rewrite co_vS, <- lsr_scal. apply lsr_ext. intros p Hp. rewrite co_vS. unfold qts'. rewrite lsr_map, <- lsr_scal. apply lsr_ext. intros q Hq. unfold pf, GlibProofs.dist. cbn [pm pp]. rewrite co_vscal, Hw by (now apply POS). unfold k, wk. rewrite unit_dot. ring. }
  assert (ET : forall i, co i (totT w pts qts') = BIG_G * lsr (fun p => lsr (fun s => pm p * pm s * k (vcross (along i) (pp p)) (pp p) (vadd (pp s) t)) qts) pts).
  { intros i. unfold totT. rewrite co_vS, <- lsr_scal. apply lsr_ext. intros p Hp. rewrite co_cross, !co_vS. unfold qts'. rewrite !lsr_map. rewrite <- !lsr_scal. rewrite Props_Newton.lsr_minus.
    apply lsr_ext. intros q Hq. unfold pf, GlibProofs.dist. cbn [pm pp]. rewrite !co_vscal, Hw by (now apply POS). unfold k, wk. rewrite cross_dot. ring. }
  split; intros [| |]; cbn [co vscal]; [rewrite EF|rewrite EF|rewrite EF|rewrite ET|rewrite ET|rewrite ET]; (eapply LIFT; [reflexivity|assumption]).
Qed.
End Two.

(* glib.point_matrix_gravity on two arrays, one of them moved away *)
Theorem C78_gravity : forall pts D1 r1 M1 d1 qts D2 r2 M2 d2 t gap, gridded pts D1 r1 M1 d1 -> gridded qts D2 r2 M2 d2 -> 0 < r1 -> 0 < gap -> r1 + r2 + gap <= vnorm t ->
  exists F T f g, interaction pull D1 r1 D2 r2 t F T /\ point_matrix_gravity (Rows pts) (translate_point_array (Rows qts) t) = Ok (f, g) /\
    vclose (BIG_G * (2 / gap ^ 3 * (M1 * d2 + M2 * d1))) f (vscal BIG_G F) /\
    vclose (BIG_G * (2 * r1 / gap ^ 3 * (M1 * d2 + M2 * d1) + M2 * d1 / gap ^ 2)) g (vscal BIG_G T).
Proof.
  intros pts D1 r1 M1 d1 qts D2 r2 M2 d2 t gap H1 H2 Hr Hg Ht. apply gridded_sound in H1. apply gridded_sound in H2.
  destruct (attract_close (fun x => / x ^ 3) 1 gap Hg newton_w0 (newton_w1 gap Hg) pts D1 r1 M1 d1 qts D2 r2 M2 d2 t H1 H2 Hr Ht wG) as (F & T & (IF & IT) & AP & QF & QT). { intros m1 m2 d Hd. unfold wG, Rdiv. ring. }
  rewrite Rabs_R1, Rmult_1_l in QF, QT. exists F, T. do 2 eexists. split; [|split].
  - split; intros i; [eapply pair_kernel; [|exact (IF i)]|eapply pair_kernel; [|exact (IT i)]]; intros v w _ _; unfold wk, pull, Rdiv; ring.
  - rewrite gravity_spec. cbn [translate_point_array rows]. replace (coincide _ _) with false by (symmetry; now apply coincide_false). reflexivity.
  - split; assumption.
Qed.
Print Assumptions C78_gravity.
(* glib.point_matrix_yukawa: the same bounds, times alpha; the range plays no part *)
Theorem C78_yukawa : forall pts D1 r1 M1 d1 qts D2 r2 M2 d2 t gap alpha lambda, gridded pts D1 r1 M1 d1 -> gridded qts D2 r2 M2 d2 -> 0 < r1 -> 0 < gap -> r1 + r2 + gap <= vnorm t -> 0 < lambda ->
  exists F T f g, interaction (yukawa_pull alpha lambda) D1 r1 D2 r2 t F T /\ point_matrix_yukawa (Rows pts) (translate_point_array (Rows qts) t) alpha lambda = Ok (f, g) /\
    vclose (BIG_G * (Rabs alpha * (2 / gap ^ 3 * (M1 * d2 + M2 * d1)))) f (vscal BIG_G F) /\
    vclose (BIG_G * (Rabs alpha * (2 * r1 / gap ^ 3 * (M1 * d2 + M2 * d1) + M2 * d1 / gap ^ 2))) g (vscal BIG_G T).
Proof.
  intros pts D1 r1 M1 d1 qts D2 r2 M2 d2 t gap alpha lambda H1 H2 Hr Hg Ht Hl. apply gridded_sound in H1. apply gridded_sound in H2.
  destruct (attract_close (Wy lambda) alpha gap Hg (yuk_w0 lambda Hl) (yuk_w1 lambda gap Hl Hg) pts D1 r1 M1 d1 qts D2 r2 M2 d2 t H1 H2 Hr Ht (wY alpha lambda)) as (F & T & (IF & IT) & AP & QF & QT).
  { intros m1 m2 d Hd. unfold wY, yuk_weight, Wy. replace (- d / lambda) with (- (d / lambda)) by (field; lra). field. lra. }
  exists F, T. do 2 eexists. split; [|split].
  - split; intros i; [eapply pair_kernel; [|exact (IF i)]|eapply pair_kernel; [|exact (IT i)]]; intros v w _ _; unfold wk, Wy, yukawa_pull, pull, Rdiv; cbv zeta; ring.
  - rewrite yukawa_spec, coincideY_nz by lra. cbn [translate_point_array rows]. replace (coincide _ _) with false by (symmetry; now apply coincide_false). reflexivity.
  - split; assumption.
Qed.
Print Assumptions C78_yukawa.

(* two bricks of glibShapes.rectangle, with cells of edges at most h: the force is wrong by at most 3 h G m1 m2 / gap^3 in each component,
   gap being the distance left between the balls about the two bricks *)
Lemma cells_le m x y z nx nz h : 0 <= m -> x / INR nx <= h -> y / INR nx <= h -> z / INR nz <= h -> m * ((x / INR nx + y / INR nx + z / INR nz) / 4) <= m * (3 / 4 * h).
Proof. intros. apply Rmult_le_compat_l; lra. Qed.
Theorem C78_bricks : forall m1 x1 y1 z1 n1 k1 r1 m2 x2 y2 z2 n2 k2 r2 t gap h,
  0 < x1 -> 0 < y1 -> 0 < z1 -> (0 < n1)%nat -> (0 < k1)%nat -> 0 < r1 -> (x1 / 2) ^ 2 + (y1 / 2) ^ 2 + (z1 / 2) ^ 2 <= r1 ^ 2 ->
  0 < x2 -> 0 < y2 -> 0 < z2 -> (0 < n2)%nat -> (0 < k2)%nat -> 0 < r2 -> (x2 / 2) ^ 2 + (y2 / 2) ^ 2 + (z2 / 2) ^ 2 <= r2 ^ 2 ->
  x1 / INR n1 <= h -> y1 / INR n1 <= h -> z1 / INR k1 <= h -> x2 / INR n2 <= h -> y2 / INR n2 <= h -> z2 / INR k2 <= h ->
  0 < gap -> r1 + r2 + gap <= vnorm t ->
  exists F T pts qts f g, interaction pull (of_mass m1 (box z1 x1 y1)) r1 (of_mass m2 (box z2 x2 y2)) r2 t F T /\
    g_rectangle m1 x1 y1 z1 n1 n1 k1 = Ok pts /\ g_rectangle m2 x2 y2 z2 n2 n2 k2 = Ok qts /\
    point_matrix_gravity (Rows pts) (translate_point_array (Rows qts) t) = Ok (f, g) /\
    vclose (BIG_G * Rabs m1 * Rabs m2 * (3 * h / gap ^ 3)) f (vscal BIG_G F) /\
    vclose (BIG_G * Rabs m1 * Rabs m2 * (3 * h * r1 / gap ^ 3 + 3 / 4 * h / gap ^ 2)) g (vscal BIG_G T).
Proof.
  intros m1 x1 y1 z1 n1 k1 r1 m2 x2 y2 z2 n2 k2 r2 t gap h X1 Y1 Z1 N1 K1 R1 B1 X2 Y2 Z2 N2 K2 R2 B2 E1 E2 E3 E4 E5 E6 Hg Ht.
  destruct (C40_rectangle_equal_counts m1 x1 y1 z1 n1 k1 X1 Y1 Z1 N1 K1) as (pts & EP & _). destruct (C40_rectangle_equal_counts m2 x2 y2 z2 n2 k2 X2 Y2 Z2 N2 K2) as (qts & EQ & _).
  assert (G1 := f_brick m1 x1 y1 z1 n1 k1 pts r1 X1 Y1 Z1 N1 K1 ltac:(lra) B1 EP). assert (G2 := f_brick m2 x2 y2 z2 n2 k2 qts r2 X2 Y2 Z2 N2 K2 ltac:(lra) B2 EQ).
  destruct (C78_gravity _ _ _ _ _ _ _ _ _ _ t gap G1 G2 R1 Hg Ht) as (F & T & f & g & I & E & CF & CT). exists F, T, pts, qts, f, g. do 4 (split; [assumption|]).
  assert (HG : 0 < BIG_G) by (unfold BIG_G; lra). assert (P1 := Rabs_pos m1). assert (P2 := Rabs_pos m2). assert (Q3 : 0 < / gap ^ 3) by (apply Rinv_0_lt_compat, pow_lt, Hg). assert (Q2 : 0 < / gap ^ 2) by (apply Rinv_0_lt_compat, pow_lt, Hg).
  assert (L1 := cells_le (Rabs m1) x1 y1 z1 n1 k1 h P1 E1 E2 E3). assert (L2 := cells_le (Rabs m2) x2 y2 z2 n2 k2 h P2 E4 E5 E6).
  set (d1 := Rabs m1 * ((x1 / INR n1 + y1 / INR n1 + z1 / INR k1) / 4)) in *. set (d2 := Rabs m2 * ((x2 / INR n2 + y2 / INR n2 + z2 / INR k2) / 4)) in *.
  assert (S1 : Rabs m2 * d1 <= Rabs m1 * Rabs m2 * (3 / 4 * h)) by (rewrite (Rmult_comm (Rabs m1)), Rmult_assoc; now apply Rmult_le_compat_l).
  assert (S2 : Rabs m1 * d2 <= Rabs m1 * Rabs m2 * (3 / 4 * h)) by (rewrite Rmult_assoc; now apply Rmult_le_compat_l).
  assert (MON : forall a b u v, a <= b -> vclose a u v -> vclose b u v) by (intros a b u v H Q i; eapply Rle_trans; [apply Q|exact H]).
  assert (H0 : 0 <= 2 / gap ^ 3) by (unfold Rdiv; lra). assert (H1 : 0 <= 2 * r1 / gap ^ 3) by (apply Rmult_le_pos; lra).
  set (X := Rabs m1 * Rabs m2 * (3 / 4 * h)) in *.
  split.
  - apply (MON (BIG_G * (2 / gap ^ 3 * (Rabs m1 * d2 + Rabs m2 * d1)))); [|exact CF].
    replace (BIG_G * Rabs m1 * Rabs m2 * (3 * h / gap ^ 3)) with (BIG_G * (2 / gap ^ 3 * (X + X))) by (unfold X, Rdiv; field; lra). apply Rmult_le_compat_l; [lra|]. apply Rmult_le_compat_l; [exact H0|lra].
  - apply (MON (BIG_G * (2 * r1 / gap ^ 3 * (Rabs m1 * d2 + Rabs m2 * d1) + Rabs m2 * d1 / gap ^ 2))); [|exact CT].
    replace (BIG_G * Rabs m1 * Rabs m2 * (3 * h * r1 / gap ^ 3 + 3 / 4 * h / gap ^ 2)) with (BIG_G * (2 * r1 / gap ^ 3 * (X + X) + X / gap ^ 2)) by (unfold X, Rdiv; field; lra).
    apply Rmult_le_compat_l; [lra|]. apply Rplus_le_compat; [apply Rmult_le_compat_l; [exact H1|lra]|apply Rmult_le_compat_r; [lra|exact S1]].
Qed.
Print Assumptions C78_bricks.
(* a case: two unit cubes of 10 by 10 by 10 points, five apart: the error of the force is at most a tenth of G *)
Example C78_case : exists F T pts qts f g, interaction pull (of_mass 1 (box 1 1 1)) 1 (of_mass 1 (box 1 1 1)) 1 (0, 0, 5) F T /\
    g_rectangle 1 1 1 1 10 10 10 = Ok pts /\ g_rectangle 1 1 1 1 10 10 10 = Ok qts /\ point_matrix_gravity (Rows pts) (translate_point_array (Rows qts) (0, 0, 5)) = Ok (f, g) /\ vclose (BIG_G / 10) f (vscal BIG_G F).
Proof.
  assert (E10 : INR 10 = 10) by (rewrite INR_IZR_INZ; reflexivity). assert (EV : vnorm (0, 0, 5) = 5) by (rewrite vnorm_xyz; replace (0 ^ 2 + 0 ^ 2 + 5 ^ 2) with (5 ^ 2) by ring; apply sqrt_pow2; lra).
  destruct (C78_bricks 1 1 1 1 10 10 1 1 1 1 1 10 10 1 (0, 0, 5) 3 (1 / 10)) as (F & T & pts & qts & f & g & H1 & H2 & H3 & H4 & H5 & _); try lra; try lia; try (rewrite E10; lra).
  exists F, T, pts, qts, f, g. do 4 (split; [assumption|]). intros i. eapply Rle_trans; [apply H5|]. rewrite Rabs_R1. assert (0 < BIG_G) by (unfold BIG_G; lra). apply Rle_trans with (BIG_G * (1 / 90)); [right; field|lra].
Qed.
(* an array in pieces: a brick with a point mass beside it, turned about z *)
Example C78_case2 : exists pts D, gridded pts D 2 (1 + 1) (1 * (3 / 4) / 2).
Proof.
  destruct (C40_rectangle_equal_counts 1 1 1 1 2 2) as (pts & EP & _); try lra; try lia.
  exists (pts ++ [mkpt (-1) (2, 0, 0)]), (together (of_mass 1 (box 1 1 1)) (point_masses [mkpt (-1) (2, 0, 0)])).
  assert (G1 : gridded pts (of_mass 1 (box 1 1 1)) 2 1 (1 * (3 / 4) / 2)).
  { assert (G := f_brick 1 1 1 1 2 2 pts 2 ltac:(lra) ltac:(lra) ltac:(lra) ltac:(lia) ltac:(lia) ltac:(lra) ltac:(lra) EP). rewrite Rabs_R1 in G. cbn [INR] in G. replace (1 * ((1 / (1 + 1) + 1 / (1 + 1) + 1 / (1 + 1)) / 4)) with (1 * (3 / 4) / 2) in G by field. exact G. }
  assert (G2 : gridded [mkpt (-1) (2, 0, 0)] (point_masses [mkpt (-1) (2, 0, 0)]) 2 1 0).
  { assert (G := f_points [mkpt (-1) (2, 0, 0)] 2 ltac:(lra)). cbn [lsr pm map] in G. match type of G with _ -> gridded _ _ _ ?M _ => replace M with 1 in G end.
    - apply G. intros p [<-|[]]. cbn [pp]. rewrite vnorm_xyz. replace (2 ^ 2 + 0 ^ 2 + 0 ^ 2) with (2 ^ 2) by ring. rewrite sqrt_pow2; lra.
    - unfold lsr. cbn. rewrite (Rabs_left (-1)) by lra. ring. }
  assert (G := f_together _ _ _ _ _ _ _ _ _ G1 G2). rewrite Rplus_0_r in G. exact G.
Qed.
(* glibShapes.rectangle against qlm.rect_prism: every moment, with its error; an even count along x and y keeps the points off the origin *)
Theorem C78_brick_moments : forall L mass x y z k nz r, (0 <= L)%Z -> 0 < x -> 0 < y -> 0 < z -> (0 < k)%nat -> (0 < nz)%nat -> 0 < r -> (x / 2) ^ 2 + (y / 2) ^ 2 + (z / 2) ^ 2 <= r ^ 2 ->
  exists q pts qp, rect_prism L mass z x y 0 = Ok q /\ g_rectangle mass x y z (2 * k) (2 * k) nz = Ok pts /\ qmoments L pts = Ok qp /\
  forall l m, (0 <= l <= L)%Z -> (Z.abs m <= l)%Z ->
    Cmod (mom qp l m - mom q l m)%C <= 2 * IZR l * sqrt ((2 * IZR l + 1) / (4 * PI)) * r ^ Z.to_nat (l - 1) * (Rabs mass * ((x / INR (2 * k) + y / INR (2 * k) + z / INR nz) / 4)).
Proof.
  intros L mass x y z k nz r HL Hx Hy Hz Hk Hnz Hr Hn. destruct (C36_rect_prism L mass z x y 0 HL Hz Hx Hy) as (q & E & Dq & MB).
  destruct (C40_rectangle_equal_counts mass x y z (2 * k) nz Hx Hy Hz ltac:(lia) Hnz) as (pts & Ep & HF & _).
  assert (RB := regular_box z x y). assert (MO : moments_of q (of_mass mass (box z x y))).
  { assert (TZ : forall f I, turned_z 0 (box z x y) f I -> box z x y f I). { intros f I H. refine (reg_ext _ RB _ _ _ _ H). intros a b c. cbv beta. unfold zrot. rewrite cos_0, sin_0. f_equal; ring. }
    destruct MB as (V & HV & H1 & HM & HC). split; [|exact HC]. intros l m Hl Hm. destruct (HM l m Hl Hm) as (I & HI & EI). exists V, I. split; [exact HV|]. split; [now apply TZ|]. split; [now apply TZ|exact EI]. }
  assert (G := f_brick mass x y z (2 * k) nz pts r Hx Hy Hz ltac:(lia) Hnz ltac:(lra) Hn Ep).
  destruct (C78_moments _ _ _ _ _ q G Hr ltac:(lia) MO) as (qp & Eq & _ & CL).
  - intros (l1 & p & l2 & p' & l3 & EP & AO & _). assert (IN : In (pp p) (map pp pts)) by (apply in_map; rewrite EP; apply in_or_app; right; now left).
    apply HF in IN. destruct IN as (LA & _). unfold at_origin in AO. destruct (pp p) as [[a b] c]. cbn in LA. destruct LA as (LA & _). apply no_centre in LA; [|lra|lia]. injection AO as ? ? ?. contradiction.
  - exists q, pts, qp. rewrite Dq in Eq, CL. split; [exact E|]. split; [exact Ep|]. split; [exact Eq|exact CL].
Qed.
Print Assumptions C78_brick_moments.
