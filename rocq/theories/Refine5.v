(* The arrays of newt/glibShapes.py tend to the homogeneous solids: trapezoid, crossed cylinders, slanted hole. *)
From Coq Require Import Reals Lra Lia List ZArith Classical.
From Coquelicot Require Import Coquelicot.
From Verif Require Import Glib LipInt BodyInt SolidSpec VInt NumSpec PointSpec ShapeSpec GlibShapes GlibShapesProofs Props_GlibShapes Props_GlibShapes2 QlmProofs QlmProofs3 NumExist Pg2MultiProofs Props_Shapes2 Qlm Props_Qlm Props_Num2 Refine2 Refine3 Refine4 RefineSpec.
From Verif Require Import Cplx.
From Verif Require Import Refine.
Import ListNotations.
Open Scope R_scope.

(* the volume between graphs exists and is positive *)
Lemma UC_sub (X : pspace) (f g : X -> R) : UC X Rs f -> UC X Rs g -> UC X Rs (fun x => f x - g x).
Proof. intros F G. apply (UC_comp X P2 Rs (fun x => (f x, g x)) (fun p => fst p - snd p)); [now apply (UC_pair X Rs Rs)|]. apply UC_LL. unfold P2. ll. Qed.
Lemma UC_add (X : pspace) (f g : X -> R) : UC X Rs f -> UC X Rs g -> UC X Rs (fun x => f x + g x).
Proof. intros F G. apply (UC_comp X P2 Rs (fun x => (f x, g x)) (fun p => fst p + snd p)); [now apply (UC_pair X Rs Rs)|]. apply UC_LL. unfold P2. ll. Qed.
Lemma UC_opp (X : pspace) (f : X -> R) : UC X Rs f -> UC X Rs (fun x => - f x).
Proof. intros F. apply (UC_comp X Rs Rs f (fun p => - p)); [exact F|]. apply UC_LL. ll. Qed.
Lemma vol_pos (P : R -> R -> R -> vec) a b lo1 hi1 (lo2 hi2 : R -> R -> R) (B : body) : a < b -> (forall u, a < u < b -> lo1 u < hi1 u) -> (forall u v, a < u < b -> lo1 u < v < hi1 u -> lo2 u v < hi2 u v) ->
  UC Rs Rs lo1 -> UC Rs Rs hi1 -> UC P2 Rs (fun p => lo2 (fst p) (snd p)) -> UC P2 Rs (fun p => hi2 (fst p) (snd p)) ->
  (forall f' I, is_int3 a b lo1 hi1 lo2 hi2 (fun u v w => let '(x, y, z) := P u v w in f' x y z) I -> B f' I) ->
  exists V, V <> 0 /\ B (fun _ _ _ => RtoC 1) (RtoC V).
Proof.
  intros Hab H1 H2 U1 U2 U3 U4 HB.
  assert (UD : UC (pprod Rs Rs) Rs (fun p => hi2 (fst p) (snd p) - lo2 (fst p) (snd p))) by now apply UC_sub.
  assert (UI := UC_int Rs _ lo1 hi1 UD U1 U2). cbn [fst snd] in UI.
  set (W := fun u => RInt (fun v => hi2 u v - lo2 u v) (lo1 u) (hi1 u)) in UI.
  assert (UI' : UC (pprod Rs Rs) Rs (fun p => W (snd p))). { apply (UC_comp (pprod Rs Rs) Rs Rs snd W); [|exact UI]. apply UC_LL. apply LL_snd. }
  exists (RInt W a b). split.
  - apply Rgt_not_eq. apply RInt_gt_0; [exact Hab| |].
    + intros u Hu. unfold W. apply RInt_gt_0; [now apply H1| |].
      * intros v Hv. specialize (H2 u v Hu Hv). lra.
      * intros v Hv. exact (UC_continuous Rs _ u v UD).
    + intros u _. exact (UC_continuous Rs (fun p => W (snd p)) 0 u UI').
  - apply HB. exists (fun u v => RtoC (hi2 u v - lo2 u v)), (fun u => RtoC (W u)). split; [|split].
    + intros u v. eapply is_CInt_ext; [intros t; destruct (P u v t) as [[x y] z]; reflexivity|]. apply (CInt_RtoC (fun _ => 1)).
      assert (E := is_RInt_const (V := R_NormedModule) (lo2 u v) (hi2 u v) 1). replace (hi2 u v - lo2 u v) with (scal (V := R_NormedModule) (hi2 u v - lo2 u v) 1) by (cbv [scal]; cbn; unfold mult; cbn; ring). exact E.
    + intros u. apply (CInt_RtoC (fun v => hi2 u v - lo2 u v)). unfold W. apply (RInt_correct (V := R_CompleteNormedModule)). exact (UC_ex_RInt Rs _ u (lo1 u) (hi1 u) UD).
    + apply (CInt_RtoC W). apply (RInt_correct (V := R_CompleteNormedModule)). exact (UC_ex_RInt Rs (fun p => W (snd p)) 0 a b UI').
Qed.
Lemma UC_chord (X : pspace) r (f : X -> R) : UC X Rs f -> UC X Rs (fun x => sqrt (r ^ 2 - f x ^ 2)).
Proof. intros F. apply (UC_comp X Rs Rs (fun x => r ^ 2 - f x ^ 2) sqrt); [|exact UC_sqrt]. apply (UC_comp X Rs Rs f (fun y => r ^ 2 - y ^ 2)); [exact F|]. apply UC_LL. cbn [pow]. ll. Qed.
Lemma chord_le r x : 0 <= r -> sqrt (r ^ 2 - x ^ 2) <= r.
Proof. intros Hr. rewrite <- (sqrt_pow2 r Hr) at 2. apply sqrt_le_1_alt. nra. Qed.
Lemma chord_iff r x y : Rabs y <= r -> (- sqrt (r ^ 2 - y ^ 2) <= x <= sqrt (r ^ 2 - y ^ 2) <-> x ^ 2 + y ^ 2 <= r ^ 2).
Proof.
  intros H. assert (Hr : 0 <= r) by (assert (K := Rabs_pos y); lra). apply sq_le in H; [|exact Hr]. split.
  - intros Hx. assert (K : x ^ 2 <= (sqrt (r ^ 2 - y ^ 2)) ^ 2) by (apply sq_le; [apply sqrt_pos|now apply Rabs_iff]). rewrite pow2_sqrt in K by lra. lra.
  - intros Hx. apply Rabs_iff. rewrite <- (sqrt_pow2 (Rabs x)) by apply Rabs_pos. apply sqrt_le_1_alt. rewrite pow2_abs. lra.
Qed.
Lemma sq_abs r y : 0 <= r -> y ^ 2 <= r ^ 2 -> Rabs y <= r.
Proof. intros Hr H. rewrite <- (sqrt_pow2 (Rabs y)) by apply Rabs_pos. rewrite <- (sqrt_pow2 r Hr). apply sqrt_le_1_alt. now rewrite pow2_abs. Qed.

Section Trapezoid.
Variables (mass r1 r2 t beta r : R).
Hypotheses (H12 : 0 <= r1 < r2) (Ht : 0 < t) (Hb : 0 < beta < PI / 2) (Hr : 0 <= r) (Hn : r2 ^ 2 + (t / 2) ^ 2 <= r ^ 2).
Let S := trapezoid_region r1 r2 t beta.
Let bx := trapezoid_span r1 r2 t beta.
Lemma trap_trig : 0 < cos beta /\ 0 < sin beta /\ 0 < tan beta /\ cos beta * tan beta = sin beta.
Proof.
  assert (Hc : 0 < cos beta) by (apply cos_gt_0; lra). assert (Hs : 0 < sin beta) by (apply sin_gt_0; lra). repeat split; try assumption; [apply tan_gt_0; lra|]. unfold tan. field. lra.
Qed.
Theorem trapezoid_tends : (forall fam, filling mass S bx fam -> tends fam (of_mass mass (trapezoid_wedge r1 r2 t beta)) r) /\
  exists N, forall nx ny nz, (N <= nx)%nat -> (N <= ny)%nat -> (N <= nz)%nat -> exists v, on_lattice bx nx ny nz v /\ S v.
Proof.
  destruct trap_trig as (Hc & Hs & HT & Ets). assert (K12 : r1 * cos beta < r2 * cos beta) by (apply Rmult_lt_compat_r; lra). assert (K1 : 0 <= r1 * cos beta) by (apply Rmult_le_pos; lra).
  assert (KT : forall x, 0 <= x <= r2 * cos beta -> 0 <= x * tan beta <= r2 * sin beta). { intros x Hx. split; [apply Rmult_le_pos; lra|]. rewrite <- Ets, <- Rmult_assoc. apply Rmult_le_compat_r; lra. }
  assert (Hbod : exists V, V <> 0 /\ trapezoid_wedge r1 r2 t beta (fun _ _ _ => RtoC 1) (RtoC V)).
  { apply (vol_pos (fun u v w => (u, v, w)) (r1 * cos beta) (r2 * cos beta) (fun x => - x * tan beta) (fun x => x * tan beta) (fun _ _ => - (t / 2)) (fun _ _ => t / 2)).
    1: exact K12. 1: intros u Hu; assert (0 < u * tan beta) by (apply Rmult_lt_0_compat; lra); lra. 1: intros; lra. 1-4: apply UC_LL; ll. intros f I H. exact H. }
  destruct Hbod as (V & HV & BV).
  refine (solid_both (fun u v w => (u, v, w)) (fun v => fst (fst v)) (fun v => snd (fst v)) (fun v => snd v) (r1 * cos beta) (r2 * cos beta) (- (r2 * sin beta)) (r2 * sin beta) (- (t / 2)) (t / 2) (r1 * cos beta) (r2 * cos beta)
    (fun x => - x * tan beta) (fun x => x * tan beta) (fun _ _ => - (t / 2)) (fun _ _ => t / 2) _ _ _ _ _ _ _ _ _ _ _ _ _ _ _ _ _ (trapezoid_wedge r1 r2 t beta) V mass r S bx _ _ HV BV _ _ _).
  1: intros [[? ?] ?]; reflexivity. 1-3: reflexivity. 1: exact (LL_id V3). 1: exact K12. 1: assert (0 < r2 * sin beta) by (apply Rmult_lt_0_compat; lra); lra. 1-4: lra.
  1: intros u Hu; assert (Q := KT u ltac:(lra)); repeat split; lra. 1: intros; split; [|split]; lra. 1-2: apply UC_LL; ll. 1-2: apply UC_LL, LL_const.
  - apply regular_plain.
  - intros f I H. exact H.
  - intros u v w. unfold S, trapezoid_region. rewrite !Rabs_iff, Ropp_mult_distr_l_reverse. split; intros HH; repeat split; lra.
  - intros k nx ny nz ? ? ? ? ? ?. exists nx, ny, nz. do 6 (split; [assumption|]). intros u v w. reflexivity.
  - intros [[a b] c] (Q1 & Q2 & Q3). apply vnorm_le; [exact Hr|]. apply sq_le in Q3; [|lra].
    assert (a ^ 2 <= (r2 * cos beta) ^ 2) by (apply pow_incr; lra). assert (b ^ 2 <= (r2 * sin beta) ^ 2). { apply sq_le; [apply Rmult_le_pos; lra|]. assert (Q := KT a ltac:(lra)). lra. }
    assert (E := sin2_cos2 beta). unfold Rsqr in E. assert (E2 : (r2 * cos beta) ^ 2 + (r2 * sin beta) ^ 2 = r2 ^ 2) by (transitivity (r2 ^ 2 * (sin beta * sin beta + cos beta * cos beta)); [ring|rewrite E; ring]). lra.
Qed.
End Trapezoid.

Section Crossed.
Variables (mass a Rad r : R).
Hypotheses (Ha : 0 < a <= Rad) (Hr : 0 <= r) (Hn : a ^ 2 + Rad ^ 2 <= r ^ 2).
Let S := crossed_region a Rad.
Let bx := crossed_span a Rad.
Theorem crossed_tends : (forall fam, filling mass S bx fam -> tends fam (of_mass mass (drilled_core a Rad)) r) /\
  exists N, forall nx ny nz, (N <= nx)%nat -> (N <= ny)%nat -> (N <= nz)%nat -> exists v, on_lattice bx nx ny nz v /\ S v.
Proof.
  assert (U0 : UC Rs Rs (fun x => x)) by (apply UC_LL, LL_id). assert (U1 : UC P2 Rs snd) by (apply UC_LL, LL_snd).
  assert (SM : forall u v, - a <= u <= a -> - sqrt (a ^ 2 - u ^ 2) <= v <= sqrt (a ^ 2 - u ^ 2) -> v ^ 2 <= a ^ 2 - u ^ 2). { intros u v Hu Hv. apply chord_iff in Hv; [lra|now apply Rabs_iff]. }
  assert (Hbod : exists V, V <> 0 /\ drilled_core a Rad (fun _ _ _ => RtoC 1) (RtoC V)).
  { apply (vol_pos (fun u v w => (u, v, w)) (- a) a (fun x => - sqrt (a ^ 2 - x ^ 2)) (fun x => sqrt (a ^ 2 - x ^ 2)) (fun _ y => - sqrt (Rad ^ 2 - y ^ 2)) (fun _ y => sqrt (Rad ^ 2 - y ^ 2))).
    1: lra. 1: intros u Hu; assert (0 < sqrt (a ^ 2 - u ^ 2)) by (apply sqrt_lt_R0; nra); lra.
    1: { intros u v Hu Hv. assert (0 < sqrt (Rad ^ 2 - v ^ 2)); [|lra]. apply sqrt_lt_R0. assert (Q := SM u v ltac:(lra) ltac:(lra)).
         assert (v ^ 2 < a ^ 2). { destruct (Req_dec u 0) as [->|N]; [|assert (0 < u ^ 2) by (apply pow2_gt_0; exact N); lra]. replace (a ^ 2 - 0 ^ 2) with (a ^ 2) in Hv by ring. rewrite sqrt_pow2 in Hv by lra. nra. }
         assert (a ^ 2 <= Rad ^ 2) by (apply pow_incr; lra). lra. }
    1: apply UC_opp. 1-2: now apply UC_chord. 1: apply (UC_opp P2 (fun p => sqrt (Rad ^ 2 - snd p ^ 2))). 1-2: now apply (UC_chord P2 Rad snd). intros f I H. exact H. }
  destruct Hbod as (V & HV & BV).
  refine (solid_both (fun u v w => (u, v, w)) (fun v => fst (fst v)) (fun v => snd (fst v)) (fun v => snd v) (- a) a (- a) a (- Rad) Rad (- a) a
    (fun x => - sqrt (a ^ 2 - x ^ 2)) (fun x => sqrt (a ^ 2 - x ^ 2)) (fun _ y => - sqrt (Rad ^ 2 - y ^ 2)) (fun _ y => sqrt (Rad ^ 2 - y ^ 2)) _ _ _ _ _ _ _ _ _ _ _ _ _ _ _ _ _ (drilled_core a Rad) V mass r S bx _ _ HV BV _ _ _).
  1: intros [[? ?] ?]; reflexivity. 1-3: reflexivity. 1: exact (LL_id V3). 1-6: lra.
  1: intros u Hu; assert (K1 := chord_le a u ltac:(lra)); assert (K2 := sqrt_pos (a ^ 2 - u ^ 2)); repeat split; lra.
  1: intros u v Hu Hv; assert (K1 := chord_le Rad v ltac:(lra)); assert (K2 := sqrt_pos (Rad ^ 2 - v ^ 2)); repeat split; lra.
  1: apply UC_opp. 1-2: now apply UC_chord. 1: apply (UC_opp P2 (fun p => sqrt (Rad ^ 2 - snd p ^ 2))). 1-2: now apply (UC_chord P2 Rad snd).
  - apply regular_plain.
  - intros f I H. exact H.
  - intros u v w. unfold S, crossed_region. split.
    + intros (Q1 & Q2). assert (u ^ 2 <= a ^ 2) by (assert (0 <= v ^ 2) by apply pow2_ge_0; lra). assert (v ^ 2 <= a ^ 2) by (assert (0 <= u ^ 2) by apply pow2_ge_0; lra).
      assert (a ^ 2 <= Rad ^ 2) by (apply pow_incr; lra).
      split; [apply Rabs_iff, sq_abs; lra|]. split; [apply chord_iff; [apply sq_abs; lra|lra]|apply chord_iff; [apply sq_abs; lra|lra]].
    + intros (Q1 & Q2 & Q3). assert (Q := SM u v Q1 Q2). assert (0 <= u ^ 2) by apply pow2_ge_0. assert (a ^ 2 <= Rad ^ 2) by (apply pow_incr; lra). apply chord_iff in Q3; [|apply sq_abs; lra]. split; lra.
  - intros k nx ny nz ? ? ? ? ? ?. exists nx, ny, nz. do 6 (split; [assumption|]). intros u v w. reflexivity.
  - intros [[x y] z] (Q1 & Q2). apply vnorm_le; [exact Hr|]. assert (0 <= y ^ 2) by apply pow2_ge_0. lra.
Qed.
End Crossed.

Section Sheared.
Variables (mass t a theta r : R).
Hypotheses (Ht : 0 < t) (Ha : 0 < a) (Hth : 0 <= theta < PI / 2) (Hr : 0 <= r) (Hn : (a + t / 2 * tan theta) ^ 2 + (t / 2) ^ 2 <= r ^ 2).
Let S := slanted_region t a theta.
Let bx := plate_span (2 * a + t * tan theta) a t.
Theorem sheared_tends : (forall fam, filling mass S bx fam -> tends fam (of_mass mass (sheared_cylinder t a theta)) r) /\
  exists N, forall nx ny nz, (N <= nx)%nat -> (N <= ny)%nat -> (N <= nz)%nat -> exists v, on_lattice bx nx ny nz v /\ S v.
Proof.
  assert (HT : 0 <= tan theta). { destruct (Req_dec theta 0) as [->|N]; [rewrite tan_0; lra|]. left. apply tan_gt_0; lra. }
  set (k := tan theta) in *.
  assert (KT : forall z, - (t / 2) <= z <= t / 2 -> - (t / 2 * k) <= z * k <= t / 2 * k). { intros z Hz. split; [rewrite <- Ropp_mult_distr_l_reverse|]; apply Rmult_le_compat_r; lra. }
  assert (Kp : 0 <= t / 2 * k) by (apply Rmult_le_pos; lra).
  assert (U1 : UC P2 Rs snd) by (apply UC_LL, LL_snd). assert (U2 : UC P2 Rs (fun p => fst p * k)) by (apply UC_LL; unfold P2; ll).
  assert (U3 : UC P2 Rs (fun p => sqrt (a ^ 2 - snd p ^ 2))) by now apply (UC_chord P2 a snd).
  assert (UL : UC P2 Rs (fun p => fst p * k - sqrt (a ^ 2 - snd p ^ 2))) by now apply UC_sub. assert (UH : UC P2 Rs (fun p => fst p * k + sqrt (a ^ 2 - snd p ^ 2))) by now apply UC_add.
  assert (Hbod : exists V, V <> 0 /\ sheared_cylinder t a theta (fun _ _ _ => RtoC 1) (RtoC V)).
  { apply (vol_pos (fun u v w => (w, v, u)) (- (t / 2)) (t / 2) (fun _ => - a) (fun _ => a) (fun z y => z * k - sqrt (a ^ 2 - y ^ 2)) (fun z y => z * k + sqrt (a ^ 2 - y ^ 2))).
    1: lra. 1: intros; lra. 1: intros u v Hu Hv; assert (0 < sqrt (a ^ 2 - v ^ 2)) by (apply sqrt_lt_R0; nra); lra. 1-2: apply UC_LL, LL_const. 1: exact UL. 1: exact UH. intros f I H. exact H. }
  destruct Hbod as (V & HV & BV).
  assert (IFF : forall u v w, S (w, v, u) <-> - (t / 2) <= u <= t / 2 /\ - a <= v <= a /\ u * k - sqrt (a ^ 2 - v ^ 2) <= w <= u * k + sqrt (a ^ 2 - v ^ 2)).
  { intros u v w. unfold S, slanted_region. fold k. rewrite Rabs_iff. split.
    + intros (Q1 & Q2). assert (v ^ 2 <= a ^ 2) by (assert (0 <= (w - u * k) ^ 2) by apply pow2_ge_0; lra). assert (Rabs v <= a) by (apply sq_abs; lra). assert (Q3 := proj2 (chord_iff a (w - u * k) v ltac:(assumption)) Q2). split; [exact Q1|]. split; [now apply Rabs_iff|split; lra].
    + intros (Q1 & Q2 & Q3). split; [exact Q1|]. apply chord_iff; [now apply Rabs_iff|split; lra]. }
  refine (solid_both (fun u v w => (w, v, u)) (fun v => snd v) (fun v => snd (fst v)) (fun v => fst (fst v)) (- (t / 2)) (t / 2) (- a) a (- (2 * a + t * k)) (2 * a + t * k) (- (t / 2)) (t / 2)
    (fun _ => - a) (fun _ => a) (fun z y => z * k - sqrt (a ^ 2 - y ^ 2)) (fun z y => z * k + sqrt (a ^ 2 - y ^ 2)) _ _ _ _ _ _ _ _ _ _ _ _ _ _ _ _ _ (sheared_cylinder t a theta) V mass r S bx _ _ HV BV IFF _ _).
  1: intros [[? ?] ?]; reflexivity. 1-3: reflexivity. 1: exact LL_zyx. 1-6: lra. 1: intros; repeat split; lra.
  1: intros u v Hu Hv; assert (K1 := chord_le a v ltac:(lra)); assert (K2 := sqrt_pos (a ^ 2 - v ^ 2)); specialize (KT u Hu); repeat split; lra.
  1-2: apply UC_LL, LL_const. 1: exact UL. 1: exact UH.
  - apply (regular_int3 _ _ _ _ _ _ (fun f z y x => f x y z)); intros; auto.
  - intros f I H. exact H.
  - intros n nx ny nz ? ? ? ? ? ?. exists nz, ny, nx. do 6 (split; [assumption|]). intros u v w. cbn. fold k. tauto.
  - intros [[x y] z] Hs. apply IFF in Hs. destruct Hs as (Q1 & Q2 & Q3). apply vnorm_le; [exact Hr|]. assert (z ^ 2 <= (t / 2) ^ 2) by (apply sq_le; [lra|apply Rabs_iff; lra]).
    assert (Q4 := proj1 (chord_iff a (x - z * k) y (proj2 (Rabs_iff _ _) Q2)) ltac:(split; lra)). specialize (KT z Q1).
    assert (E : x ^ 2 + y ^ 2 <= (a + t / 2 * k) ^ 2); [|lra]. set (d := z * k) in *. assert (Rabs (x - d) <= a) by (apply sq_abs; [lra|assert (0 <= y ^ 2) by apply pow2_ge_0; lra]). apply Rabs_iff in H0. nra.
Qed.
End Sheared.
