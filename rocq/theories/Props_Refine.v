(* C77: the point-mass arrays of newt/glibShapes.py, refined, and the solids they stand for. *)
From Coq Require Import Reals Lra Lia List ZArith.
From Coquelicot Require Import Coquelicot.
From Verif Require Import Glib GlibSpec GlibProofs NewtonSpec Newton MomentSpec Pg2Multi Pg2MultiProofs Props_Moments Addition Irreg2 Props_Series2 MultipoleLib TransSpec Translations SolidSpec ShapeSpec QlmProofs QlmProofs3 VInt Qlm Props_Qlm Props_Recipe LipInt BodyInt BodySpec BuiltSpec Props_Body FloatSpec Props_Float Props_Float3 GlibShapes PointSpec Props_GlibShapes Refine2 Refine3 Refine6 RefineSpec.
From Verif Require Import Cplx.
From Verif Require Import Refine.
Import ListNotations.
Open Scope R_scope.

(* ---- the arrays exist ---- *)
Theorem C77_arrays_exist : forall fam D r, digitised fam D r -> forall n, exists pts, fam n pts /\ forall p, In p pts -> vnorm (pp p) <= r.
Proof. intros fam D r H n. destruct (digitised_sound fam D r H) as (_ & _ & (_ & B & _) & EX). destruct (EX n) as (pts & HF). exists pts. split; [exact HF|]. intros p. exact (B n pts p HF). Qed.
Print Assumptions C77_arrays_exist.

(* ---- the moments ---- *)
Lemma uniform_deg (Q : Z -> Z -> nat -> Prop) L : (forall l m n n', (n <= n')%nat -> Q l m n -> Q l m n') -> (forall l m, (0 <= l <= L)%Z -> (Z.abs m <= l)%Z -> exists N, Q l m N) ->
  exists N, forall l m, (0 <= l <= L)%Z -> (Z.abs m <= l)%Z -> Q l m N.
Proof.
  intros Hm H. destruct (Z.lt_ge_cases L 0) as [HL|HL]; [exists 0%nat; intros; lia|].
  assert (A : forall k : nat, (Z.of_nat k <= L)%Z -> exists N, forall l m, (0 <= l <= Z.of_nat k)%Z -> (Z.abs m <= l)%Z -> Q l m N).
  { assert (ROW : forall l, (0 <= l <= L)%Z -> exists N, forall m, (Z.abs m <= l)%Z -> Q l m N).
    { intros l Hl. assert (G : forall j : nat, exists N, forall m, (- l <= m <= - l + Z.of_nat j)%Z -> (Z.abs m <= l)%Z -> Q l m N).
      { induction j as [|j (N & IH)].
        - destruct (H l (- l)%Z Hl ltac:(lia)) as (N & HN). exists N. intros m H1 H2. replace m with (- l)%Z by lia. exact HN.
        - destruct (Z.le_gt_cases (Z.abs (- l + Z.of_nat (Datatypes.S j))) l) as [K|K].
          + destruct (H l _ Hl K) as (N' & HN'). exists (N + N')%nat. intros m H1 H2. destruct (Z.eq_dec m (- l + Z.of_nat (Datatypes.S j))) as [->|NE]; [apply (Hm l _ N'); [lia|exact HN']|apply (Hm l _ N); [lia|apply IH; lia]].
          + exists N. intros m H1 H2. apply IH; lia. }
      destruct (G (Z.to_nat (2 * l))) as (N & HN). exists N. intros m Hmm. apply HN; lia. }
    induction k as [|k IH]; intros Hk.
    - destruct (ROW 0%Z ltac:(lia)) as (N & HN). exists N. intros l m H1 H2. replace l with 0%Z in * by lia. now apply HN.
    - destruct (IH ltac:(lia)) as (N & HN). destruct (ROW (Z.of_nat (Datatypes.S k)) ltac:(lia)) as (N' & HN'). exists (N + N')%nat. intros l m H1 H2.
      destruct (Z.eq_dec l (Z.of_nat (Datatypes.S k))) as [->|NE]; [apply (Hm _ _ N'); [lia|now apply HN']|apply (Hm _ _ N); [lia|apply HN; lia]]. }
  destruct (A (Z.to_nat L) ltac:(lia)) as (N & HN). exists N. intros l m H1 H2. apply HN; lia.
Qed.
Theorem C77_moments : forall fam D r q, digitised fam D r -> (0 <= deg q)%Z -> moments_of q D -> forall eps, 0 < eps ->
  exists N, forall n pts, (N <= n)%nat -> fam n pts -> ~ origin_before_other pts ->
  exists qp, qmoments (deg q) pts = Ok qp /\ deg qp = deg q /\ forall l m, (0 <= l <= deg q)%Z -> (Z.abs m <= l)%Z -> Cmod (mom qp l m - mom q l m)%C < eps.
Proof.
  intros fam D r q H HL (HM & _) eps He. destruct (digitised_sound fam D r H) as (RD & _ & T & _).
  destruct (uniform_deg (fun l m N => forall n pts, (N <= n)%nat -> fam n pts -> Cmod (lsum (fun p => (RtoC (pm p) * rsolid l m (pp p))%C) pts - mom q l m)%C < eps) (deg q)) as (N & HN).
  - intros l m n n' Hn Q k pts Hk. apply Q. lia.
  - intros l m Hl Hmm. exact (tends_complex fam D r (fun v => rsolid l m v) (mom q l m) RD T (CLL_rsolid l m) (HM l m Hl Hmm) eps He).
  - exists N. intros n pts Hn HF Ho. destruct (C08_qmoments (deg q) pts HL Ho) as (qp & E & Dq & HH). exists qp. split; [exact E|]. split; [exact Dq|]. intros l m Hl Hmm.
    assert (EM : mom qp l m = inner_moment pts l m) by (apply HH; [rewrite Dq; lia|exact Hmm]). rewrite EM. exact (HN l m Hl Hmm n pts Hn HF).
Qed.
Print Assumptions C77_moments.

(* ---- the attraction ---- *)
Lemma unit_dot i v : vdot (along i) v = co i v. Proof. destruct i, v as [[x y] z]; unfold along, vdot, co; ring. Qed.
Lemma cross_dot i v f : vdot (vcross (along i) v) f = co (next i) v * co (next (next i)) f - co (next (next i)) v * co (next i) f.
Proof. destruct i, v as [[x y] z], f as [[a b] c]; unfold along, vcross, vdot, co; cbn; ring. Qed.
Lemma LL_cross_u i : LL V3 V3 (fun v => vcross (along i) v).
Proof.
  destruct i.
  - refine (LL_ext V3 V3 _ _ _ (LL_mvec ((0, 0, 0), (0, 0, -1), (0, 1, 0)))). intros [[x y] z]. unfold along, mvec, vdot, vcross. apply v3; ring.
  - refine (LL_ext V3 V3 _ _ _ (LL_mvec ((0, 0, 1), (0, 0, 0), (-1, 0, 0)))). intros [[x y] z]. unfold along, mvec, vdot, vcross. apply v3; ring.
  - refine (LL_ext V3 V3 _ _ _ (LL_mvec ((0, -1, 0), (1, 0, 0), (0, 0, 0)))). intros [[x y] z]. unfold along, mvec, vdot, vcross. apply v3; ring.
Qed.
Lemma far_gap (v w t : vec) r1 r2 : vnorm v <= r1 -> vnorm w <= r2 -> vnorm t - r1 - r2 <= vnorm (vsub (vadd w t) v).
Proof.
  intros Hv Hw. assert (T1 := vnorm_triangle (vsub (vadd w t) v) (vsub v w)). replace (vadd (vsub (vadd w t) v) (vsub v w)) with t in T1.
  2:{ destruct w as [[? ?] ?], t as [[? ?] ?], v as [[? ?] ?]. unfold vadd, vsub. apply v3; ring. }
  assert (T2 := vnorm_triangle v (vopp w)). replace (vadd v (vopp w)) with (vsub v w) in T2. 2:{ destruct w as [[? ?] ?], v as [[? ?] ?]. unfold vadd, vsub, vopp. apply v3; ring. }
  replace (vnorm (vopp w)) with (vnorm w) in T2. 2:{ destruct w as [[? ?] ?]. unfold vopp. rewrite !vnorm_xyz. f_equal. ring. }
  lra.
Qed.
Section Attract.
Variables (W : R -> R) (fam1 : nat -> list pt -> Prop) (D1 : body) (r1 : R) (fam2 : nat -> list pt -> Prop) (D2 : body) (r2 : R) (t : vec).
Hypotheses (HW : forall d, 0 < d -> LL Rs Rs (fun x => W (Rmax x d))) (T1 : Refine2.tends fam1 D1 r1) (T2 : Refine2.tends fam2 D2 r2) (Hs : r1 + r2 < vnorm t).
Definition wk (e a b : vec) : R := W (vnorm (vsub b a)) * vdot e (vsub b a).
Lemma kernel_tends (e : vec -> vec) : LL V3 V3 e -> exists J, pair_integral D1 r1 D2 r2 (fun v w => wk (e v) v (vadd w t)) J /\
  forall eps, 0 < eps -> exists N, forall n m pts qts, (N <= n)%nat -> (N <= m)%nat -> fam1 n pts -> fam2 m qts ->
    Rabs (lsr (fun p => lsr (fun s => pm p * pm s * wk (e (pp p)) (pp p) (vadd (pp s) t)) qts) pts - J) <= eps.
Proof.
  intros He. set (d := vnorm t - r1 - r2).
  apply (pair_tends fam1 D1 r1 fam2 D2 r2 (fun v w => wk (e v) v (vadd w t)) (fun p => W (Rmax (vnorm (gap (fun v => v) t p)) d) * vdot (e (fst p)) (gap (fun v => v) t p)) T1 T2).
  - apply UC_LL. assert (LG := LL_gap (fun v => v) t (LL_id V3)). apply (LL_mult (pprod V3 V3)).
    + apply (LL_comp (pprod V3 V3) Rs Rs (fun p => vnorm (gap (fun v => v) t p)) (fun x => W (Rmax x d))); [exact (LL_comp (pprod V3 V3) V3 Rs _ _ LG LL_vnorm)|]. apply HW. unfold d. lra.
    + apply (LL_dot3 (pprod V3 V3) (fun p => e (fst p))); [exact (LL_comp (pprod V3 V3) V3 V3 fst e (LL_fst V3 V3) He)|exact LG].
  - intros v w Hv Hw. unfold wk, gap. cbn [fst snd]. rewrite Rmax_left; [reflexivity|]. unfold d. now apply far_gap.
Qed.
Lemma far_apart pts qts : (forall p, In p pts -> vnorm (pp p) <= r1) -> (forall p, In p qts -> vnorm (pp p) <= r2) -> apart_all pts (map (fun p => mkpt (pm p) (vadd (pp p) t)) qts).
Proof.
  intros A B p q Hp Hq. apply in_map_iff in Hq. destruct Hq as (s & <- & Hs'). unfold apart. cbn [pp]. intros E. assert (G := far_gap (pp p) (pp s) t r1 r2 (A p Hp) (B s Hs')).
  rewrite E in G. replace (vsub (vadd (pp s) t) (vadd (pp s) t)) with v0 in G. 2:{ destruct (pp s) as [[? ?] ?], t as [[? ?] ?]. unfold v0, vadd, vsub. apply v3; ring. }
  unfold v0 in G. rewrite vnorm_xyz in G. replace (0 ^ 2 + 0 ^ 2 + 0 ^ 2) with 0 in G by ring. rewrite sqrt_0 in G. lra.
Qed.
Variables (w : R -> R -> R -> R).
Hypothesis Hw : forall m1 m2 d, 0 < d -> w m1 m2 d = BIG_G * (m1 * m2 * W d).
Lemma attract_limit : exists F T, interaction wk D1 r1 D2 r2 t F T /\
  forall eps, 0 < eps -> exists N, forall n m pts qts, (N <= n)%nat -> (N <= m)%nat -> fam1 n pts -> fam2 m qts ->
    let qts' := map (fun p => mkpt (pm p) (vadd (pp p) t)) qts in
    apart_all pts qts' /\ vclose eps (totF w pts qts') (vscal BIG_G F) /\ vclose eps (totT w pts qts') (vscal BIG_G T).
Proof.
  assert (HG : 0 < BIG_G) by (unfold BIG_G; lra).
  assert (KF : forall i, exists J, pair_integral D1 r1 D2 r2 (fun v w => wk (along i) v (vadd w t)) J /\ forall eps, 0 < eps -> exists N, forall n m pts qts, (N <= n)%nat -> (N <= m)%nat -> fam1 n pts -> fam2 m qts ->
    Rabs (lsr (fun p => lsr (fun s => pm p * pm s * wk (along i) (pp p) (vadd (pp s) t)) qts) pts - J) <= eps) by (intros i; exact (kernel_tends (fun _ => along i) (LL_cst3 V3 (along i)))).
  assert (KT : forall i, exists J, pair_integral D1 r1 D2 r2 (fun v w => wk (vcross (along i) v) v (vadd w t)) J /\ forall eps, 0 < eps -> exists N, forall n m pts qts, (N <= n)%nat -> (N <= m)%nat -> fam1 n pts -> fam2 m qts ->
    Rabs (lsr (fun p => lsr (fun s => pm p * pm s * wk (vcross (along i) (pp p)) (pp p) (vadd (pp s) t)) qts) pts - J) <= eps) by (intros i; exact (kernel_tends (fun v => vcross (along i) v) (LL_cross_u i))).
  destruct (KF AX) as (Fx & FX & LFX). destruct (KF AY) as (Fy & FY & LFY). destruct (KF AZ) as (Fz & FZ & LFZ).
  destruct (KT AX) as (Tx & TX & LTX). destruct (KT AY) as (Ty & TY & LTY). destruct (KT AZ) as (Tz & TZ & LTZ).
  exists (Fx, Fy, Fz), (Tx, Ty, Tz). split; [split; intros [| |]; assumption|]. intros eps He.
  assert (He' : 0 < eps / BIG_G) by now apply Rdiv_lt_0_compat.
  destruct (LFX _ He') as (N1 & L1). destruct (LFY _ He') as (N2 & L2). destruct (LFZ _ He') as (N3 & L3). destruct (LTX _ He') as (N4 & L4). destruct (LTY _ He') as (N5 & L5). destruct (LTZ _ He') as (N6 & L6).
  exists (N1 + N2 + N3 + N4 + N5 + N6)%nat. intros n m pts qts Hn Hm H1 H2 qts'.
  assert (B1 := fun p => proj1 (proj2 T1) n pts p H1). assert (B2 := fun p => proj1 (proj2 T2) m qts p H2).
  assert (AP := far_apart pts qts B1 B2). fold qts' in AP. split; [exact AP|].
  assert (LIFT : forall a b c, a = BIG_G * b -> Rabs (b - c) <= eps / BIG_G -> Rabs (a - BIG_G * c) <= eps).
  { intros a b c -> Q. replace (BIG_G * b - BIG_G * c) with (BIG_G * (b - c)) by ring. rewrite Rabs_mult, (Rabs_pos_eq BIG_G) by lra. apply Rle_trans with (BIG_G * (eps / BIG_G)); [apply Rmult_le_compat_l; lra|right; field; lra]. }
  assert (POS : forall p q, In p pts -> In q qts -> 0 < vnorm (vsub (vadd (pp q) t) (pp p))). { intros p q Hp Hq. assert (G := far_gap (pp p) (pp q) t r1 r2 (B1 p Hp) (B2 q Hq)). lra. }
  assert (EF : forall i, co i (totF w pts qts') = BIG_G * lsr (fun p => lsr (fun s => pm p * pm s * wk (along i) (pp p) (vadd (pp s) t)) qts) pts).
  { intros i. unfold totF. rewrite co_vS, <- lsr_scal. apply lsr_ext. intros p Hp. rewrite co_vS. unfold qts'. rewrite lsr_map, <- lsr_scal. apply lsr_ext. intros q Hq. unfold pf, GlibProofs.dist. cbn [pm pp]. rewrite co_vscal, Hw by (now apply POS). unfold wk. rewrite unit_dot. ring. }
  assert (ET : forall i, co i (totT w pts qts') = BIG_G * lsr (fun p => lsr (fun s => pm p * pm s * wk (vcross (along i) (pp p)) (pp p) (vadd (pp s) t)) qts) pts).
  { intros i. unfold totT. rewrite co_vS, <- lsr_scal. apply lsr_ext. intros p Hp. rewrite co_cross, !co_vS. unfold qts'. rewrite !lsr_map. rewrite <- !lsr_scal. rewrite Props_Newton.lsr_minus.
    apply lsr_ext. intros q Hq. unfold pf, GlibProofs.dist. cbn [pm pp]. rewrite !co_vscal, Hw by (now apply POS). unfold wk. rewrite cross_dot. ring. }
  split; intros [| |]; cbn [co vscal]; [rewrite EF|rewrite EF|rewrite EF|rewrite ET|rewrite ET|rewrite ET]; (eapply LIFT; [reflexivity|]).
  - apply (L1 n m); [lia|lia|assumption|assumption].
  - apply (L2 n m); [lia|lia|assumption|assumption].
  - apply (L3 n m); [lia|lia|assumption|assumption].
  - apply (L4 n m); [lia|lia|assumption|assumption].
  - apply (L5 n m); [lia|lia|assumption|assumption].
  - apply (L6 n m); [lia|lia|assumption|assumption].
Qed.
End Attract.

Lemma LL_newton d : 0 < d -> LL Rs Rs (fun x => / Rmax x d ^ 3).
Proof. intros Hd. refine (LL_ext Rs Rs _ _ _ (LL_pow Rs (fun x => / Rmax x d) 3 (LL_invmax d Hd))). intros x. apply pow_inv. Qed.
Lemma pair_kernel D1 r1 D2 r2 (k k' : vec -> vec -> R) I : (forall v w, vnorm v <= r1 -> vnorm w <= r2 -> k v w = k' v w) -> pair_integral D1 r1 D2 r2 k I -> pair_integral D1 r1 D2 r2 k' I.
Proof. intros E (f & g & H1 & H2 & H3). exists f, g. split; [|split; assumption]. intros v w Hv Hw. rewrite H1 by assumption. now apply E. Qed.
(* the force between two arrays, and the torque, tend to those between the solids *)
Theorem C77_gravity : forall fam1 D1 r1 fam2 D2 r2 t, digitised fam1 D1 r1 -> digitised fam2 D2 r2 -> r1 + r2 < vnorm t ->
  exists F T, interaction pull D1 r1 D2 r2 t F T /\
  forall eps, 0 < eps -> exists N, forall n m pts qts, (N <= n)%nat -> (N <= m)%nat -> fam1 n pts -> fam2 m qts ->
  exists f g, point_matrix_gravity (Rows pts) (translate_point_array (Rows qts) t) = Ok (f, g) /\ vclose eps f (vscal BIG_G F) /\ vclose eps g (vscal BIG_G T).
Proof.
  intros fam1 D1 r1 fam2 D2 r2 t H1 H2 Ht. destruct (digitised_sound _ _ _ H1) as (_ & _ & T1 & _). destruct (digitised_sound _ _ _ H2) as (_ & _ & T2 & _).
  destruct (attract_limit (fun x => / x ^ 3) fam1 D1 r1 fam2 D2 r2 t LL_newton T1 T2 Ht wG) as (F & T & (IF & IT) & L). { intros m1 m2 d Hd. unfold wG, Rdiv. ring. }
  exists F, T. split.
  - split; intros i; [eapply pair_kernel; [|exact (IF i)]|eapply pair_kernel; [|exact (IT i)]]; intros v w _ _; unfold wk, pull, Rdiv; ring.
  - intros eps He. destruct (L eps He) as (N & Q). exists N. intros n m pts qts Hn Hm F1 F2. destruct (Q n m pts qts Hn Hm F1 F2) as (AP & QF & QT). cbv zeta in *.
    rewrite gravity_spec. cbn [translate_point_array rows]. replace (coincide _ _) with false by (symmetry; now apply coincide_false). do 2 eexists. split; [reflexivity|]. split; assumption.
Qed.
Print Assumptions C77_gravity.
Lemma LL_exp : LL Rs Rs exp.
Proof.
  intros A. exists (exp A), (exp A). assert (P := exp_pos A). split; [lra|]. split; [lra|]. cbn.
  assert (M : forall x, Rabs x <= A -> exp x <= exp A). { intros x Hx. assert (x <= A) by (apply Rle_trans with (Rabs x); [apply Rle_abs|exact Hx]). destruct H as [H|H]; [left; now apply exp_increasing|right; now rewrite H]. }
  split; [intros x Hx; rewrite Rabs_pos_eq by (left; apply exp_pos); now apply M|].
  assert (G : forall x y, x < y -> Rabs x <= A -> Rabs y <= A -> Rabs (exp y - exp x) <= exp A * Rabs (y - x)).
  { intros x y Hxy Hx Hy. destruct (MVT_cor2 exp exp x y Hxy) as (c & E & Hc). { intros c _. apply derivable_pt_lim_exp. }
    rewrite E, Rabs_mult, (Rabs_pos_eq (exp c)) by (left; apply exp_pos). apply Rmult_le_compat_r; [apply Rabs_pos|]. apply M. apply Rabs_le_between in Hx. apply Rabs_le_between in Hy. apply Rabs_le_between. lra. }
  intros x y Hx Hy. destruct (Rtotal_order x y) as [H|[->|H]].
  - rewrite Rabs_minus_sym, (Rabs_minus_sym x y). now apply G.
  - unfold Rminus. rewrite !Rplus_opp_r, Rabs_R0. lra.
  - now apply G.
Qed.
Lemma LL_yukawa alpha lambda d : lambda <> 0 -> 0 < d -> LL Rs Rs (fun x => alpha * (1 + Rmax x d / lambda) * exp (- (Rmax x d / lambda)) * / Rmax x d ^ 3).
Proof.
  intros Hl Hd. assert (LM : LL Rs Rs (fun x => Rmax x d)). { apply (LL_glob (fun x => Rmax x d) 1); [lra|]. intros x y. rewrite Rmult_1_l. unfold Rmax. destruct (Rle_dec x d), (Rle_dec y d); unfold Rabs; repeat destruct Rcase_abs; lra. }
  apply (LL_mult Rs); [|now apply LL_newton]. apply (LL_mult Rs).
  - apply (LL_comp Rs Rs Rs (fun x => Rmax x d) (fun y => alpha * (1 + y / lambda))); [exact LM|]. ll.
  - apply (LL_comp Rs Rs Rs (fun x => - (Rmax x d / lambda)) exp); [|exact LL_exp]. apply (LL_comp Rs Rs Rs (fun x => Rmax x d) (fun y => - (y / lambda))); [exact LM|]. ll.
Qed.
Theorem C77_yukawa : forall fam1 D1 r1 fam2 D2 r2 t alpha lambda, digitised fam1 D1 r1 -> digitised fam2 D2 r2 -> r1 + r2 < vnorm t -> lambda <> 0 ->
  exists F T, interaction (yukawa_pull alpha lambda) D1 r1 D2 r2 t F T /\
  forall eps, 0 < eps -> exists N, forall n m pts qts, (N <= n)%nat -> (N <= m)%nat -> fam1 n pts -> fam2 m qts ->
  exists f g, point_matrix_yukawa (Rows pts) (translate_point_array (Rows qts) t) alpha lambda = Ok (f, g) /\ vclose eps f (vscal BIG_G F) /\ vclose eps g (vscal BIG_G T).
Proof.
  intros fam1 D1 r1 fam2 D2 r2 t alpha lambda H1 H2 Ht Hl. destruct (digitised_sound _ _ _ H1) as (_ & _ & T1 & _). destruct (digitised_sound _ _ _ H2) as (_ & _ & T2 & _).
  destruct (attract_limit (fun x => alpha * (1 + x / lambda) * exp (- (x / lambda)) * / x ^ 3) fam1 D1 r1 fam2 D2 r2 t (fun d => LL_yukawa alpha lambda d Hl) T1 T2 Ht (wY alpha lambda)) as (F & T & (IF & IT) & L).
  { intros m1 m2 d Hd. unfold wY, yuk_weight. replace (- d / lambda) with (- (d / lambda)) by (field; exact Hl). field. split; [lra|exact Hl]. }
  exists F, T. split.
  - split; intros i; [eapply pair_kernel; [|exact (IF i)]|eapply pair_kernel; [|exact (IT i)]]; intros v w _ _; unfold wk, yukawa_pull, pull, Rdiv; cbv zeta; ring.
  - intros eps He. destruct (L eps He) as (N & Q). exists N. intros n m pts qts Hn Hm F1 F2. destruct (Q n m pts qts Hn Hm F1 F2) as (AP & QF & QT). cbv zeta in *.
    rewrite yukawa_spec, coincideY_nz by exact Hl. cbn [translate_point_array rows]. replace (coincide _ _) with false by (symmetry; now apply coincide_false). do 2 eexists. split; [reflexivity|]. split; assumption.
Qed.
Print Assumptions C77_yukawa.

(* the two ways of computing a force agree in the limit: multipoles of the solids up to a large degree, and large arrays *)
Theorem C77_two_ways : forall fam1 D1 r1 fam2 D2 r2 t, digitised fam1 D1 r1 -> digitised fam2 D2 r2 -> built D1 r1 -> built D2 r2 -> r1 + r2 < vnorm t -> forall eps, 0 < eps ->
  exists (L0 : Z) N, forall q qs n m pts qts, (L0 <= deg q)%Z -> deg qs = deg q -> moments_of q D1 -> moments_of qs D2 -> (N <= n)%nat -> (N <= m)%nat -> fam1 n pts -> fam2 m qts ->
  exists Q f g T, translate_q2Q qs t = Ok Q /\ multipole_force (deg q) q Q 0 0 0 BIG_G = Ok f /\ point_matrix_gravity (Rows pts) (translate_point_array (Rows qts) t) = Ok (g, T) /\ near eps f g.
Proof.
  intros fam1 D1 r1 fam2 D2 r2 t H1 H2 K1 K2 Ht eps He. destruct (C77_gravity fam1 D1 r1 fam2 D2 r2 t H1 H2 Ht) as (F & T & (IF & _) & L).
  assert (Z0 : vnorm (0, 0, 0) = 0). { rewrite vnorm_xyz. replace (0 ^ 2 + 0 ^ 2 + 0 ^ 2) with 0 by ring. apply sqrt_0. }
  destruct (C61_force D1 r1 D2 r2 t 0 0 0 BIG_G K1 K2 ltac:(rewrite Z0; lra)) as (Fx & Fy & Fz & GX & GY & GZ & LM).
  assert (V0 : forall v : vec, vadd v (0, 0, 0) = v) by (intros [[x y] z]; unfold vadd; apply v3; ring).
  assert (EX : co AX F = Fx). { apply (C61_integral_unique D1 r1 D2 r2 (fun v w => pull (1, 0, 0) v (vadd w t))); [exact K1|exact K2|exact (IF AX)|]. eapply pair_kernel; [|exact GX]. intros v w _ _. cbv beta. now rewrite V0. }
  assert (EY : co AY F = Fy). { apply (C61_integral_unique D1 r1 D2 r2 (fun v w => pull (0, 1, 0) v (vadd w t))); [exact K1|exact K2|exact (IF AY)|]. eapply pair_kernel; [|exact GY]. intros v w _ _. cbv beta. now rewrite V0. }
  assert (EZ : co AZ F = Fz). { apply (C61_integral_unique D1 r1 D2 r2 (fun v w => pull (0, 0, 1) v (vadd w t))); [exact K1|exact K2|exact (IF AZ)|]. eapply pair_kernel; [|exact GZ]. intros v w _ _. cbv beta. now rewrite V0. }
  destruct (LM (eps / 2) ltac:(lra)) as (L0 & QM). destruct (L (eps / 4) ltac:(lra)) as (N & QP). exists L0, N. intros q qs n m pts qts HL Hd M1 M2 Hn Hm F1 F2.
  destruct (QM q qs HL Hd M1 M2) as (Q & f & EQ & Ef & Nf). destruct (QP n m pts qts Hn Hm F1 F2) as (g & tq & Eg & Ng & _). exists Q, f, g, tq. do 3 (split; [assumption|]).
  destruct f as [[fx fy] fz], g as [[gx gy] gz]. destruct F as [[A1 A2] A3]. cbn [co] in EX, EY, EZ. subst A1 A2 A3. destruct Nf as (N1 & N2 & N3).
  assert (P1 := Ng AX). assert (P2' := Ng AY). assert (P3 := Ng AZ). cbn [co vscal] in P1, P2', P3.
  assert (TRI : forall (z : C) (a b : R), Cmod (z - RtoC b)%C < eps / 2 -> Rabs (a - b) <= eps / 4 -> Cmod (z - RtoC a)%C < eps).
  { intros z a b Q1 Q2. replace (z - RtoC a)%C with ((z - RtoC b) + RtoC (b - a))%C by (rewrite RtoC_minus; ring). eapply Rle_lt_trans; [apply Cmod_triangle|]. rewrite Cmod_R, Rabs_minus_sym. lra. }
  split; [|split]; eapply TRI; eassumption.
Qed.
Print Assumptions C77_two_ways.

(* a case: the brick.  With an even count along x no point of the array is at the origin, and the moments of
   glibShapes.rectangle tend to those of qlm.rect_prism *)
Lemma no_centre a k x : 0 < a -> (0 < k)%nat -> centre (0 - a) (0 + a) (2 * k) x -> x <> 0.
Proof.
  intros Ha Hk (i & _ & ->) E. assert (Hp : 0 < INR k) by (apply lt_0_INR; exact Hk). rewrite mult_INR in E. cbn [INR] in E.
  assert (E2 : INR i + 1 / 2 = INR k). { apply (Rmult_eq_reg_r (a / INR k)); [|apply Rgt_not_eq, Rdiv_lt_0_compat; lra]. replace (INR k * (a / INR k)) with a by (field; lra). replace (0 - a + (INR i + 1 / 2) * ((0 + a - (0 - a)) / ((1 + 1) * INR k))) with ((INR i + 1 / 2) * (a / INR k) - a) in E by (field; lra). lra. }
  assert (E3 : (2 * Z.of_nat i + 1 = 2 * Z.of_nat k)%Z). { apply eq_IZR. rewrite plus_IZR, !mult_IZR, <- !INR_IZR_INZ. lra. } lia.
Qed.
Theorem C77_brick : forall L mass x y z, (0 <= L)%Z -> 0 < x -> 0 < y -> 0 < z ->
  exists q, rect_prism L mass z x y 0 = Ok q /\ deg q = L /\ forall eps, 0 < eps ->
  exists N, forall k nz, (N <= k)%nat -> (N <= nz)%nat -> exists pts qp, g_rectangle mass x y z (2 * k) (2 * k) nz = Ok pts /\ qmoments L pts = Ok qp /\
    forall l m, (0 <= l <= L)%Z -> (Z.abs m <= l)%Z -> Cmod (mom qp l m - mom q l m)%C < eps.
Proof.
  intros L mass x y z HL Hx Hy Hz. destruct (C36_rect_prism L mass z x y 0 HL Hz Hx Hy) as (q & E & Dq & MB). exists q. split; [exact E|]. split; [exact Dq|]. intros eps He.
  set (r := sqrt ((x / 2) ^ 2 + (y / 2) ^ 2 + (z / 2) ^ 2)).
  assert (HD := d_rectangle mass x y z r Hx Hy Hz (sqrt_pos _)). assert (Hr : (x / 2) ^ 2 + (y / 2) ^ 2 + (z / 2) ^ 2 <= r ^ 2). { unfold r. rewrite pow2_sqrt; [lra|]. assert (A := pow2_ge_0 (x / 2)). assert (B := pow2_ge_0 (y / 2)). assert (C' := pow2_ge_0 (z / 2)). lra. }
  specialize (HD Hr). assert (RB := regular_box z x y).
  assert (TZ : forall f I, turned_z 0 (box z x y) f I -> box z x y f I).
  { intros f I H. refine (reg_ext _ RB _ _ _ _ H). intros a b c. cbv beta. unfold zrot. rewrite cos_0, sin_0. f_equal; ring. }
  assert (MO : moments_of q (of_mass mass (box z x y))). { destruct MB as (V & HV & H1 & HM & HC). split; [|exact HC]. intros l m Hl Hm. destruct (HM l m Hl Hm) as (I & HI & EI). exists V, I. split; [exact HV|]. split; [now apply TZ|]. split; [now apply TZ|exact EI]. }
  destruct (C77_moments _ _ _ q HD ltac:(lia) MO eps He) as (N & Q). exists (N + 1)%nat. intros k nz Hk Hnz.
  destruct (C40_rectangle_equal_counts mass x y z (2 * k) nz Hx Hy Hz ltac:(lia) ltac:(lia)) as (pts & Ep & HF & _).
  destruct (Q N pts ltac:(lia)) as (qp & Eq & _ & CL).
  - exists (2 * k)%nat, nz. split; [lia|]. split; [lia|exact Ep].
  - intros (l1 & p & l2 & p' & l3 & EP & AO & _). assert (IN : In (pp p) (map pp pts)) by (apply in_map; rewrite EP; apply in_or_app; right; now left).
    apply HF in IN. destruct IN as (LA & _). unfold at_origin in AO. destruct (pp p) as [[a b] c]. cbn in LA. destruct LA as (LA & _). apply no_centre in LA; [|lra|lia]. injection AO as ? ? ?. contradiction.
  - exists pts, qp. split; [exact Ep|]. rewrite <- Dq. split; [exact Eq|exact CL].
Qed.
Print Assumptions C77_brick.
(* two bricks, one turned and moved: the hypotheses of C77_two_ways but for the turning, which is not needed there *)
Example C77_case : exists fam D, digitised fam D (1 + vnorm (0, 0, 3)) /\ built D (1 + vnorm (0, 0, 3)) /\ 1 + vnorm (0, 0, 3) + 1 < vnorm (0, 0, 8).
Proof.
  assert (E : forall c, 0 <= c -> vnorm (0, 0, c) = c). { intros c Hc. rewrite vnorm_xyz. replace (0 ^ 2 + 0 ^ 2 + c ^ 2) with (c ^ 2) by ring. now apply sqrt_pow2. }
  eexists. eexists. split; [apply d_shifted; apply (d_rectangle 2 1 1 1 1); lra|]. split; [|rewrite !E; lra].
  apply b_shifted. destruct (C36_rect_prism 0 1 1 1 1 0 ltac:(lia) ltac:(lra) ltac:(lra) ltac:(lra)) as (q & _ & _ & V & HV & BV & _).
  apply (b_of_mass 2 V); [exact HV|exact BV|apply b_box; lra].
Qed.
(* the same for the rings, the sectors of rings and the cones *)
Lemma of_body q mass B : moments_of_body q mass B -> moments_of q (of_mass mass B).
Proof. intros (V & HV & H1 & HM & HC). split; [|exact HC]. intros l m Hl Hm. destruct (HM l m Hl Hm) as (I & HI & EI). exists V, I. split; [exact HV|]. split; [exact H1|]. split; [exact HI|exact EI]. Qed.
Lemma off_origin pts : (forall v, In v (map pp pts) -> v <> v0) -> ~ origin_before_other pts.
Proof. intros H (l1 & p & l2 & p' & l3 & EP & AO & _). apply (H (pp p)); [|exact AO]. apply in_map. rewrite EP. apply in_or_app. right. now left. Qed.
Lemma ball_around a b : exists r, 0 <= r /\ a ^ 2 + b ^ 2 <= r ^ 2.
Proof. exists (sqrt (a ^ 2 + b ^ 2)). split; [apply sqrt_pos|]. rewrite pow2_sqrt; [lra|]. assert (A := pow2_ge_0 a). assert (B := pow2_ge_0 b). lra. Qed.
Theorem C77_annulus : forall L mass H Ri Ro, (0 <= L)%Z -> mass <> 0 -> 0 < H -> 0 <= Ri < Ro ->
  exists q, annulus L mass H Ri Ro 0 PI = Ok q /\ deg q = L /\ forall eps, 0 < eps ->
  exists N, forall k nz pts, (N <= k)%nat -> (N <= nz)%nat -> g_annulus mass Ri Ro H (2 * k) nz = Ok pts -> exists qp, qmoments L pts = Ok qp /\
    forall l m, (0 <= l <= L)%Z -> (Z.abs m <= l)%Z -> Cmod (mom qp l m - mom q l m)%C < eps.
Proof.
  intros L mass H Ri Ro HL Hm HH HR. assert (HPI := PI_RGT_0). destruct (C35_annulus L mass H Ri Ro 0 PI HL HH HR ltac:(lra)) as (q & E & Dq & MB). exists q. split; [exact E|]. split; [exact Dq|]. intros eps He.
  destruct (ball_around Ro (H / 2)) as (r & Hr & Hn). destruct (C77_moments _ _ _ q (d_annulus mass Ri Ro H r Hm HR HH Hr Hn) ltac:(lia) (of_body q mass _ MB) eps He) as (N & Q).
  exists (N + 1)%nat. intros k nz pts Hk Hnz Ep. destruct (Q N pts ltac:(lia)) as (qp & Eq & _ & CL).
  - exists (2 * k)%nat, nz. split; [lia|]. split; [lia|exact Ep].
  - apply off_origin. intros v Hv ->. destruct (proj1 (C40_annulus mass Ri Ro H (2 * k) nz HR HH Hm ltac:(lia) ltac:(lia))) as [(pts' & E' & _ & HF)|(E' & _)]; rewrite Ep in E'; [|discriminate]. injection E' as <-. apply HF in Hv. destruct Hv as (LA & _).
    destruct LA as (LA & _). unfold z_span in LA. cbn [s_x0 s_x1] in LA. rewrite <- (Rminus_0_l Ro), <- (Rplus_0_l Ro) in LA. rewrite (Rplus_0_l Ro) in LA at 1. apply no_centre in LA; [|lra|lia]. now apply LA.
  - exists qp. rewrite <- Dq. split; [exact Eq|exact CL].
Qed.
Theorem C77_wedge : forall L mass H Ri Ro beta, (0 <= L)%Z -> mass <> 0 -> 0 < H -> 0 < Ri < Ro -> 0 < beta <= PI ->
  exists q, annulus L mass H Ri Ro 0 beta = Ok q /\ deg q = L /\ forall eps, 0 < eps ->
  exists N, forall nx nz, (N <= nx)%nat -> (N <= nz)%nat -> exists pts qp, g_wedge mass Ri Ro H beta nx nz = Ok pts /\ qmoments L pts = Ok qp /\
    forall l m, (0 <= l <= L)%Z -> (Z.abs m <= l)%Z -> Cmod (mom qp l m - mom q l m)%C < eps.
Proof.
  intros L mass H Ri Ro beta HL Hm HH HR Hb. assert (HR' : 0 <= Ri < Ro) by lra. destruct (C35_annulus L mass H Ri Ro 0 beta HL HH HR' Hb) as (q & E & Dq & MB). exists q. split; [exact E|]. split; [exact Dq|]. intros eps He.
  destruct (ball_around Ro (H / 2)) as (r & Hr & Hn). destruct (C77_moments _ _ _ q (d_wedge mass Ri Ro H beta r Hm HR' HH Hb Hr Hn) ltac:(lia) (of_body q mass _ MB) eps He) as (N & Q).
  exists (N + 1)%nat. intros nx nz Hk Hnz. destruct (proj1 (C40_wedge mass Ri Ro H beta nx nz HR' HH Hb Hm ltac:(lia) ltac:(lia))) as (pts & Ep & HF). destruct (Q N pts ltac:(lia)) as (qp & Eq & _ & CL).
  - exists nx, nz. split; [lia|]. split; [lia|exact Ep].
  - apply off_origin. intros v Hv ->. apply HF in Hv. destruct Hv as (_ & (a & p & Ha & _ & E1 & E2) & _). assert (T := sin2_cos2 p). unfold Rsqr in T. assert (Z : a ^ 2 = 0). { replace (a ^ 2) with ((a * cos p) ^ 2 + (a * sin p) ^ 2) by (replace ((a * cos p) ^ 2 + (a * sin p) ^ 2) with (a ^ 2 * (sin p * sin p + cos p * cos p)) by ring; rewrite T; ring). rewrite <- E1, <- E2. ring. } nra.
  - exists pts, qp. split; [exact Ep|]. rewrite <- Dq. split; [exact Eq|exact CL].
Qed.
Theorem C77_cone : forall L mass P Rad beta, (0 <= L)%Z -> mass <> 0 -> 0 < P -> 0 < Rad -> 0 < beta <= PI ->
  exists q, cone L mass P Rad 0 beta = Ok q /\ deg q = L /\ forall eps, 0 < eps ->
  exists N, forall nx nz, (N <= nx)%nat -> (N <= nz)%nat -> exists pts qp, g_cone mass Rad P beta nx nz = Ok pts /\ qmoments L pts = Ok qp /\
    forall l m, (0 <= l <= L)%Z -> (Z.abs m <= l)%Z -> Cmod (mom qp l m - mom q l m)%C < eps.
Proof.
  intros L mass H Rad beta HL Hm HH HR Hb. destruct (C35_cone L mass H Rad 0 beta HL HH HR Hb) as (q & E & Dq & MB). exists q. split; [exact E|]. split; [exact Dq|]. intros eps He.
  destruct (C77_moments _ _ _ q (d_cone mass Rad H beta (Rad + H) Hm ltac:(lra) ltac:(lra) Hb) ltac:(lia) (of_body q mass _ MB) eps He) as (N & Q).
  exists (N + 1)%nat. intros nx nz Hk Hnz. destruct (proj1 (C40_cone mass Rad H beta nx nz HR HH Hb Hm ltac:(lia) ltac:(lia))) as (pts & Ep & HF). destruct (Q N pts ltac:(lia)) as (qp & Eq & _ & CL).
  - exists nx, nz. split; [lia|]. split; [lia|exact Ep].
  - apply off_origin. intros v Hv ->. apply HF in Hv. destruct Hv as (LA & _). rewrite sector_span_eq in LA. destruct LA as (_ & _ & (i & Hi & EI)). cbn [s_z0 s_z1] in EI. assert (0 < INR nz) by (apply lt_0_INR; lia). assert (0 <= INR i) by apply pos_INR. assert (0 < (INR i + 1 / 2) * ((H - 0) / INR nz)) by (apply Rmult_lt_0_compat; [lra|apply Rdiv_lt_0_compat; lra]). lra.
  - exists pts, qp. split; [exact Ep|]. rewrite <- Dq. split; [exact Eq|exact CL].
Qed.
Print Assumptions C77_annulus. Print Assumptions C77_wedge. Print Assumptions C77_cone.
(* a ring beside a cone in one array, off the axis of the second: another case of the hypotheses of C77_two_ways *)
Example C77_polar_case : exists fam D, digitised fam D 2 /\ built (annular_sector 1 (1/2) 1 0 PI) 2 /\ built (cone_sector 1 1 0 PI) 2 /\
  D = together (of_mass 3 (annular_sector 1 (1/2) 1 0 PI)) (of_mass 1 (cone_sector 1 1 0 PI)).
Proof.
  assert (HPI := PI_RGT_0). eexists. eexists. split; [apply d_together; [apply (d_annulus 3 (1/2) 1 1 2); lra|apply (d_cone 1 1 1 PI 2); lra]|]. split; [apply b_cylinder_shell; lra|]. split; [apply b_cone; lra|reflexivity].
Qed.
