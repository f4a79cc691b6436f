(* C83: the point-mass arrays of newt/gShapeGL.py with ever larger Gauss-Legendre rules, and the solids they stand for. *)
From Coq Require Import Reals Lra Lia List ZArith.
From Coquelicot Require Import Coquelicot.
From Verif Require Import Glib GlibSpec GlibProofs NewtonSpec Newton MomentSpec Pg2Multi Pg2MultiProofs Props_Moments Addition Irreg2 Props_Series2 MultipoleLib TransSpec Translations SolidSpec ShapeSpec QlmProofs QlmProofs3 VInt Qlm Props_Qlm Props_Recipe LipInt BodyInt BodySpec BuiltSpec Props_Body FloatSpec Props_Float Props_Float3 GlibShapes PointSpec Props_GlibShapes Refine2 Refine3 Refine6 RefineSpec GLSpec GShapeGL GLRefineSpec GLProofs Props_GL Props_GL2 Props_GL3 GLSound Props_Refine.
From Verif Require Import Cplx.
From Verif Require Import Refine.
Import ListNotations.
Open Scope R_scope.

Theorem C83_arrays_exist : forall fam D r, gl_digitised fam D r -> forall n, exists pts, fam n pts /\ forall p, In p pts -> vnorm (pp p) <= r.
Proof. intros fam D r H n. destruct (gl_digitised_sound fam D r H) as (_ & _ & (_ & B & _) & EX). destruct (EX n) as (pts & HF). exists pts. split; [exact HF|]. intros p. exact (B n pts p HF). Qed.
Print Assumptions C83_arrays_exist.

Theorem C83_moments : forall fam D r q, gl_digitised fam D r -> (0 <= deg q)%Z -> moments_of q D -> forall eps, 0 < eps ->
  exists N, forall n pts, (N <= n)%nat -> fam n pts -> ~ origin_before_other pts ->
  exists qp, qmoments (deg q) pts = Ok qp /\ deg qp = deg q /\ forall l m, (0 <= l <= deg q)%Z -> (Z.abs m <= l)%Z -> Cmod (mom qp l m - mom q l m)%C < eps.
Proof.
  intros fam D r q H HL (HM & _) eps He. destruct (gl_digitised_sound fam D r H) as (RD & _ & T & _).
  destruct (uniform_deg (fun l m N => forall n pts, (N <= n)%nat -> fam n pts -> Cmod (lsum (fun p => (RtoC (pm p) * rsolid l m (pp p))%C) pts - mom q l m)%C < eps) (deg q)) as (N & HN).
  - intros l m n n' Hn Q k pts Hk. apply Q. lia.
  - intros l m Hl Hmm. exact (tends_complex fam D r (fun v => rsolid l m v) (mom q l m) RD T (CLL_rsolid l m) (HM l m Hl Hmm) eps He).
  - exists N. intros n pts Hn HF Ho. destruct (C08_qmoments (deg q) pts HL Ho) as (qp & E & Dq & HH). exists qp. split; [exact E|]. split; [exact Dq|]. intros l m Hl Hmm.
    assert (EM : mom qp l m = inner_moment pts l m) by (apply HH; [rewrite Dq; lia|exact Hmm]). rewrite EM. exact (HN l m Hl Hmm n pts Hn HF).
Qed.
Print Assumptions C83_moments.

(* the force between two arrays, and the torque, tend to those between the solids *)
Theorem C83_gravity : forall fam1 D1 r1 fam2 D2 r2 t, gl_digitised fam1 D1 r1 -> gl_digitised fam2 D2 r2 -> r1 + r2 < vnorm t ->
  exists F T, interaction pull D1 r1 D2 r2 t F T /\
  forall eps, 0 < eps -> exists N, forall n m pts qts, (N <= n)%nat -> (N <= m)%nat -> fam1 n pts -> fam2 m qts ->
  exists f g, point_matrix_gravity (Rows pts) (translate_point_array (Rows qts) t) = Ok (f, g) /\ vclose eps f (vscal BIG_G F) /\ vclose eps g (vscal BIG_G T).
Proof.
  intros fam1 D1 r1 fam2 D2 r2 t H1 H2 Ht. destruct (gl_digitised_sound _ _ _ H1) as (_ & _ & T1 & _). destruct (gl_digitised_sound _ _ _ H2) as (_ & _ & T2 & _).
  destruct (attract_limit (fun x => / x ^ 3) fam1 D1 r1 fam2 D2 r2 t LL_newton T1 T2 Ht wG) as (F & T & (IF & IT) & L). { intros m1 m2 d Hd. unfold wG, Rdiv. ring. }
  exists F, T. split.
  - split; intros i; [eapply pair_kernel; [|exact (IF i)]|eapply pair_kernel; [|exact (IT i)]]; intros v w _ _; unfold wk, pull, Rdiv; ring.
  - intros eps He. destruct (L eps He) as (N & Q). exists N. intros n m pts qts Hn Hm F1 F2. destruct (Q n m pts qts Hn Hm F1 F2) as (AP & QF & QT). cbv zeta in *.
    rewrite gravity_spec. cbn [translate_point_array rows]. replace (coincide _ _) with false by (symmetry; now apply coincide_false). do 2 eexists. split; [reflexivity|]. split; assumption.
Qed.
Print Assumptions C83_gravity.
Theorem C83_yukawa : forall fam1 D1 r1 fam2 D2 r2 t alpha lambda, gl_digitised fam1 D1 r1 -> gl_digitised fam2 D2 r2 -> r1 + r2 < vnorm t -> lambda <> 0 ->
  exists F T, interaction (yukawa_pull alpha lambda) D1 r1 D2 r2 t F T /\
  forall eps, 0 < eps -> exists N, forall n m pts qts, (N <= n)%nat -> (N <= m)%nat -> fam1 n pts -> fam2 m qts ->
  exists f g, point_matrix_yukawa (Rows pts) (translate_point_array (Rows qts) t) alpha lambda = Ok (f, g) /\ vclose eps f (vscal BIG_G F) /\ vclose eps g (vscal BIG_G T).
Proof.
  intros fam1 D1 r1 fam2 D2 r2 t alpha lambda H1 H2 Ht Hl. destruct (gl_digitised_sound _ _ _ H1) as (_ & _ & T1 & _). destruct (gl_digitised_sound _ _ _ H2) as (_ & _ & T2 & _).
  destruct (attract_limit (fun x => alpha * (1 + x / lambda) * exp (- (x / lambda)) * / x ^ 3) fam1 D1 r1 fam2 D2 r2 t (fun d => LL_yukawa alpha lambda d Hl) T1 T2 Ht (wY alpha lambda)) as (F & T & (IF & IT) & L).
  { intros m1 m2 d Hd. unfold wY, yuk_weight. replace (- d / lambda) with (- (d / lambda)) by (field; exact Hl). field. split; [lra|exact Hl]. }
  exists F, T. split.
  - split; intros i; [eapply pair_kernel; [|exact (IF i)]|eapply pair_kernel; [|exact (IT i)]]; intros v w _ _; unfold wk, yukawa_pull, pull, Rdiv; cbv zeta; ring.
  - intros eps He. destruct (L eps He) as (N & Q). exists N. intros n m pts qts Hn Hm F1 F2. destruct (Q n m pts qts Hn Hm F1 F2) as (AP & QF & QT). cbv zeta in *.
    rewrite yukawa_spec, coincideY_nz by exact Hl. cbn [translate_point_array rows]. replace (coincide _ _) with false by (symmetry; now apply coincide_false). do 2 eexists. split; [reflexivity|]. split; assumption.
Qed.
Print Assumptions C83_yukawa.

(* the two ways of computing a force agree in the limit: multipoles of the solids up to a large degree, and large arrays *)
Theorem C83_two_ways : forall fam1 D1 r1 fam2 D2 r2 t, gl_digitised fam1 D1 r1 -> gl_digitised fam2 D2 r2 -> built D1 r1 -> built D2 r2 -> r1 + r2 < vnorm t -> forall eps, 0 < eps ->
  exists (L0 : Z) N, forall q qs n m pts qts, (L0 <= deg q)%Z -> deg qs = deg q -> moments_of q D1 -> moments_of qs D2 -> (N <= n)%nat -> (N <= m)%nat -> fam1 n pts -> fam2 m qts ->
  exists Q f g T, translate_q2Q qs t = Ok Q /\ multipole_force (deg q) q Q 0 0 0 BIG_G = Ok f /\ point_matrix_gravity (Rows pts) (translate_point_array (Rows qts) t) = Ok (g, T) /\ near eps f g.
Proof.
  intros fam1 D1 r1 fam2 D2 r2 t H1 H2 K1 K2 Ht eps He. destruct (C83_gravity fam1 D1 r1 fam2 D2 r2 t H1 H2 Ht) as (F & T & (IF & _) & L).
  assert (Z0 : vnorm (0, 0, 0) = 0). { rewrite vnorm_xyz. replace (0 ^ 2 + 0 ^ 2 + 0 ^ 2) with 0 by ring. apply sqrt_0. }
  destruct (C61_force D1 r1 D2 r2 t 0 0 0 BIG_G K1 K2 ltac:(rewrite Z0; lra)) as (Fx & Fy & Fz & GX & GY & GZ & LM).
  assert (V0 : forall v : vec, vadd v (0, 0, 0) = v) by (intros [[x y] z]; unfold vadd; apply v3; ring).
  assert (EX : co AX F = Fx). { apply (C61_integral_unique D1 r1 D2 r2 (fun v w => pull (1, 0, 0) v (vadd w t))); [exact K1|exact K2|exact (IF AX)|]. eapply pair_kernel; [|exact GX]. intros v w _ _. cbv beta. now rewrite V0. }
  assert (EY : co AY F = Fy). { apply (C61_integral_unique D1 r1 D2 r2 (fun v w => pull (0, 1, 0) v (vadd w t))); [exact K1|exact K2|exact (IF AY)|]. eapply pair_kernel; [|exact GY]. intros v w _ _. cbv beta. now rewrite V0. }
  assert (EZ : co AZ F = Fz). { apply (C61_integral_unique D1 r1 D2 r2 (fun v w => pull (0, 0, 1) v (vadd w t))); [exact K1|exact K2|exact (IF AZ)|]. eapply pair_kernel; [|exact GZ]. intros v w _ _. cbv beta. now rewrite V0. }
  destruct (LM (eps / 2) ltac:(lra)) as (L0 & QM). destruct (L (eps / 4) ltac:(lra)) as (N & QP). exists L0, N. intros q qs n m pts qts HL Hd M1 M2 Hn Hm F1 F2.
  destruct (QM q qs HL Hd M1 M2) as (Q & f & EQ & Ef & Nf). destruct (QP n m pts qts Hn Hm F1 F2) as (g & tq & Eg & Ng & _). exists Q, f, g, tq. do 3 (split; [assumption|]).
  destruct f as [[fx fy] fz], g as [[gx gy] gz]. destruct F as [[A1 A2] A3]. cbn [co] in EX, EY, EZ. subst A1 A2 A3. destruct Nf as (N1 & N2 & N3).
  assert (P1 := Ng AX). assert (P2' := Ng AY). assert (P3 := Ng AZ). cbn [co vscal] in P1, P2', P3.
  assert (TRI : forall (z : C) (a b : R), Cmod (z - RtoC b)%C < eps / 2 -> Rabs (a - b) <= eps / 4 -> Cmod (z - RtoC a)%C < eps).
  { intros z a b Q1 Q2. replace (z - RtoC a)%C with ((z - RtoC b) + RtoC (b - a))%C by (rewrite RtoC_minus; ring). eapply Rle_lt_trans; [apply Cmod_triangle|]. rewrite Cmod_R, Rabs_minus_sym. lra. }
  split; [|split]; eapply TRI; eassumption.
Qed.
Print Assumptions C83_two_ways.

(* cases: the rings and their sectors.  The arrays of gShapeGL.annulus and wedge with thickness t have in the limit the moments
   of qlm.annulus with the height 2t *)
Lemma ring_off iR oR H v : 0 < iR -> PointSpec.ring iR oR H v -> v <> v0.
Proof. intros Hi Hv ->. unfold PointSpec.ring, v0 in Hv. nra. Qed.
Theorem C83_annulus : forall L mass t Ri Ro, (0 <= L)%Z -> mass <> 0 -> 0 < t -> 0 < Ri < Ro ->
  exists q, annulus L mass (2 * t) Ri Ro 0 PI = Ok q /\ deg q = L /\ forall eps, 0 < eps ->
  exists N, forall gl dd pts, (N <= dd)%nat -> rules_at gl (dd :: nil) -> gl_annulus gl mass Ri Ro t dd dd = Ok pts -> exists qp, qmoments L pts = Ok qp /\
    forall l m, (0 <= l <= L)%Z -> (Z.abs m <= l)%Z -> Cmod (mom qp l m - mom q l m)%C < eps.
Proof.
  intros L mass t Ri Ro HL Hm Ht HR. assert (HPI := PI_RGT_0). destruct (C35_annulus L mass (2 * t) Ri Ro 0 PI HL ltac:(lra) ltac:(lra) ltac:(lra)) as (q & E & Dq & MB). exists q. split; [exact E|]. split; [exact Dq|]. intros eps He.
  destruct (ball_around Ro t) as (r & Hr & Hn). destruct (C83_moments _ _ _ q (q_annulus mass Ri Ro t r ltac:(lra) Ht Hr Hn) ltac:(lia) (of_body q mass _ MB) eps He) as (N & Q).
  exists (N + 1)%nat. intros gl dd pts Hd G Ep. destruct (Q N pts ltac:(lia)) as (qp & Eq & _ & CL).
  - exists gl, dd. split; [lia|]. split; [exact G|exact Ep].
  - apply off_origin. intros v Hv. destruct (C41_annulus gl mass Ri Ro t dd dd G ltac:(lra) Ht ltac:(lia) (Nat.le_refl _)) as [(pts' & E' & _ & HF & _)|(E' & _)]; rewrite Ep in E'; [|discriminate]. injection E' as <-. apply HF in Hv. exact (ring_off Ri Ro (2 * t) v ltac:(lra) (proj2 Hv)).
  - exists qp. rewrite <- Dq. split; [exact Eq|exact CL].
Qed.
Theorem C83_wedge : forall L mass t Ri Ro beta, (0 <= L)%Z -> mass <> 0 -> 0 < t -> 0 < Ri < Ro -> 0 < beta <= PI ->
  exists q, annulus L mass (2 * t) Ri Ro 0 beta = Ok q /\ deg q = L /\ forall eps, 0 < eps ->
  exists N, forall gl dd, (N <= dd)%nat -> rules_at gl (dd :: nil) -> exists pts qp, gl_wedge gl mass Ri Ro t beta dd dd = Ok pts /\ qmoments L pts = Ok qp /\
    forall l m, (0 <= l <= L)%Z -> (Z.abs m <= l)%Z -> Cmod (mom qp l m - mom q l m)%C < eps.
Proof.
  intros L mass t Ri Ro beta HL Hm Ht HR Hb. destruct (C35_annulus L mass (2 * t) Ri Ro 0 beta HL ltac:(lra) ltac:(lra) Hb) as (q & E & Dq & MB). exists q. split; [exact E|]. split; [exact Dq|]. intros eps He.
  destruct (ball_around Ro t) as (r & Hr & Hn). destruct (C83_moments _ _ _ q (q_wedge mass Ri Ro t beta r ltac:(lra) Ht Hb Hr Hn) ltac:(lia) (of_body q mass _ MB) eps He) as (N & Q).
  exists (N + 1)%nat. intros gl dd Hd G. destruct (proj1 (C41_wedge gl mass Ri Ro t beta dd dd G ltac:(lra) Ht Hb ltac:(lia) (Nat.le_refl _))) as (pts & Ep & HF & _). destruct (Q N pts ltac:(lia)) as (qp & Eq & _ & CL).
  - exists gl, dd. split; [lia|]. split; [exact G|exact Ep].
  - apply off_origin. intros v Hv ->. apply HF in Hv. destruct Hv as (_ & (a & p & Ha & _ & E1 & E2) & _). assert (T := sin2_cos2 p). unfold Rsqr in T. assert (Z : a ^ 2 = 0). { replace (a ^ 2) with ((a * cos p) ^ 2 + (a * sin p) ^ 2) by (replace ((a * cos p) ^ 2 + (a * sin p) ^ 2) with (a ^ 2 * (sin p * sin p + cos p * cos p)) by ring; rewrite T; ring). rewrite <- E1, <- E2. ring. } nra.
  - exists pts, qp. split; [exact Ep|]. rewrite <- Dq. split; [exact Eq|exact CL].
Qed.
Print Assumptions C83_annulus. Print Assumptions C83_wedge.
(* a rule with an even number of points has none at the middle *)
Lemma even_rule_no_zero k r p : gauss_rule (2 * k) r -> In p r -> fst p <> 0.
Proof.
  intros G Hp E. assert (SY := C41_rule_symmetric _ _ G). set (xs := map fst r). assert (LX : length xs = (2 * k)%nat) by (unfold xs; rewrite map_length; apply (gr_len _ _ G)).
  assert (SX : rev (map Ropp xs) = xs). { unfold xs. rewrite <- SY at 2. rewrite map_rev, !map_map. reflexivity. }
  assert (IX : In 0 xs). { rewrite <- E. unfold xs. now apply in_map. }
  destruct (In_nth xs 0 0 IX) as (i & Hi & Ei).
  assert (ND : NoDup xs). { assert (SS := gr_sorted _ _ G). fold xs in SS. clear -SS. induction SS as [|a l SS IH F]; constructor; [|exact IH]. intros Ha. rewrite List.Forall_forall in F. specialize (F a Ha). lra. }
  assert (E2 : nth (length xs - Datatypes.S i) xs 0 = 0).
  { assert (K : nth i (rev (map Ropp xs)) 0 = 0) by (now rewrite SX). rewrite rev_nth in K by (now rewrite map_length). rewrite map_length in K.
    assert (K2 : nth (length xs - Datatypes.S i) (map Ropp xs) (- 0) = 0) by (rewrite Ropp_0; exact K). rewrite map_nth in K2. lra. }
  assert (J : i = (length xs - Datatypes.S i)%nat) by (apply (proj1 (NoDup_nth xs 0) ND); [exact Hi|lia|congruence]). lia.
Qed.
Theorem C83_brick : forall L mass x y z, (0 <= L)%Z -> mass <> 0 -> 0 < x -> 0 < y -> 0 < z ->
  exists q, rect_prism L mass z x y 0 = Ok q /\ deg q = L /\ forall eps, 0 < eps ->
  exists N, forall gl k dy dz, (N <= k)%nat -> (N <= dy)%nat -> (N <= dz)%nat -> rules_at gl ((2 * k)%nat :: dy :: dz :: nil) ->
  exists pts qp, gl_rectangle gl mass x y z (2 * k) dy dz = Ok pts /\ qmoments L pts = Ok qp /\
    forall l m, (0 <= l <= L)%Z -> (Z.abs m <= l)%Z -> Cmod (mom qp l m - mom q l m)%C < eps.
Proof.
  intros L mass x y z HL Hm Hx Hy Hz. destruct (C36_rect_prism L mass z x y 0 HL Hz Hx Hy) as (q & E & Dq & MB). exists q. split; [exact E|]. split; [exact Dq|]. intros eps He.
  set (r := sqrt ((x / 2) ^ 2 + (y / 2) ^ 2 + (z / 2) ^ 2)). assert (Hr : (x / 2) ^ 2 + (y / 2) ^ 2 + (z / 2) ^ 2 <= r ^ 2). { unfold r. rewrite pow2_sqrt; [lra|]. assert (A := pow2_ge_0 (x / 2)). assert (B := pow2_ge_0 (y / 2)). assert (C' := pow2_ge_0 (z / 2)). lra. }
  assert (HD := q_rectangle mass x y z r Hm Hx Hy Hz (sqrt_pos _) Hr). assert (RB := regular_box z x y).
  assert (TZ : forall f I, turned_z 0 (box z x y) f I -> box z x y f I).
  { intros f I H. refine (reg_ext _ RB _ _ _ _ H). intros a b c. cbv beta. unfold zrot. rewrite cos_0, sin_0. f_equal; ring. }
  assert (MO : moments_of q (of_mass mass (box z x y))). { destruct MB as (V & HV & H1 & HM & HC). split; [|exact HC]. intros l m Hl Hmm. destruct (HM l m Hl Hmm) as (I & HI & EI). exists V, I. split; [exact HV|]. split; [now apply TZ|]. split; [now apply TZ|exact EI]. }
  destruct (C83_moments _ _ _ q HD ltac:(lia) MO eps He) as (N & Q). exists (N + 1)%nat. intros gl k dy dz Hk H1 H2 G.
  destruct (C41_rectangle_mass gl mass x y z (2 * k) dy dz G ltac:(lia) ltac:(lia) ltac:(lia)) as (pts & Ep & _).
  destruct (Q N pts ltac:(lia)) as (qp & Eq & _ & CL).
  - exists gl, (2 * k)%nat, dy, dz. do 3 (split; [lia|]). split; [exact G|exact Ep].
  - apply off_origin. intros v Hv ->. unfold gl_rectangle in Ep. rewrite !leg_ok in Ep by lia. cbn [bind] in Ep. injection Ep as <-. apply in_map_iff in Hv. destruct Hv as (p & Ev & Hp). unfold gl_grid in Hp.
    apply in_flat_map in Hp. destruct Hp as (sz & _ & Hp). apply in_flat_map in Hp. destruct Hp as (sy & _ & Hp). apply in_map_iff in Hp. destruct Hp as (sx & <- & Hs). cbn [pp] in Ev. unfold v0 in Ev. injection Ev as Ex _ _.
    apply (even_rule_no_zero k (gl (2 * k)%nat) sx (G _ ltac:(cbn; tauto)) Hs). nra.
  - exists pts, qp. split; [exact Ep|]. rewrite <- Dq. split; [exact Eq|exact CL].
Qed.
Print Assumptions C83_brick.
(* a half ring of gShapeGL moved up, beside a brick of glibShapes in one array, and built too: cases of the hypotheses of C83_two_ways *)
Example C83_case : exists fam D, gl_digitised fam D (2 + vnorm (0, 0, 3)) /\ built D (2 + vnorm (0, 0, 3)) /\ 2 + vnorm (0, 0, 3) + 2 < vnorm (0, 0, 8).
Proof.
  assert (HPI := PI_RGT_0). assert (E : forall c, 0 <= c -> vnorm (0, 0, c) = c). { intros c Hc. rewrite vnorm_xyz. replace (0 ^ 2 + 0 ^ 2 + c ^ 2) with (c ^ 2) by ring. now apply sqrt_pow2. }
  eexists. eexists. split; [apply q_shifted; apply (q_wedge 2 (1/2) 1 (1/2) (PI / 2) 2); lra|]. split; [|rewrite !E; lra].
  apply b_shifted. destruct (C35_annulus 0 1 (2 * (1/2)) (1/2) 1 0 (PI / 2) ltac:(lia) ltac:(lra) ltac:(lra) ltac:(lra)) as (q & _ & _ & V & HV & BV & _).
  apply (b_of_mass 2 V); [exact HV|exact BV|apply b_cylinder_shell; lra].
Qed.
Example C83_case2 : exists fam D, gl_digitised fam D 2 /\ exists pts, fam 9%nat pts /\ pts <> nil.
Proof.
  eexists. eexists. split; [apply q_together; [apply (q_sphere 3 1 2); lra|apply q_uniform, (d_rectangle 2 1 1 1 2); lra]|].
  assert (EB := C83_arrays_exist _ _ 2 (q_sphere 3 1 2 ltac:(lra) ltac:(lra)) 9). destruct EB as (p1 & F1 & _).
  assert (EC := C77_arrays_exist _ _ 2 (d_rectangle 2 1 1 1 2 ltac:(lra) ltac:(lra) ltac:(lra) ltac:(lra) ltac:(lra)) 9). destruct EC as (p2 & F2 & _).
  exists (p1 ++ p2). split; [exists p1, p2; split; [exact F1|]; split; [exact F2|reflexivity]|].
  destruct F1 as (gl & dd & Hd & G & E1). destruct (proj1 (C41_sphere gl 3 1 dd G ltac:(lra) ltac:(lra) ltac:(lia))) as [(p & E2 & NE & _)|(E2 & _)]; rewrite E1 in E2; [|discriminate]. injection E2 as <-. destruct p1; [contradiction|discriminate].
Qed.
