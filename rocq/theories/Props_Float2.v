(* C75: rounding errors of translate_point_array and rotate_point_array, and their growth when an array is moved again and
   again. *)
From Coq Require Import Reals Lra Lia List Permutation.
From Coquelicot Require Import Coquelicot.
From Verif Require Import Glib GlibSpec GlibProofs GlibProofs2 FloatSpec FlGlib NewtonSpec Newton Irreg2 Props_Float FlMoves.
Import ListNotations.
Open Scope R_scope.

(* ---- specification ---- *)
(* the library's sine, within one unit in the last place *)
Definition accurate_sin (u : R) (fsin : R -> R) : Prop := forall x, Rabs (fsin x - sin x) <= 2 * u * Rabs (sin x).
(* relative error of one move *)
Definition move_error (u : R) : R := 7 * after u 26.
(* how far the moves can carry a point *)
Fixpoint way (ms : list move) : R := match ms with [] => 0 | MShift t :: ms => vnorm t + way ms | MTurn _ _ :: ms => way ms end.

Section Rounding.
Context (A : arith) (u : R) (HA : accurate u A) (fsin : R -> R) (HS : accurate_sin u fsin).
Notation rel := (Props_Float.rel u). Notation close := (Props_Float.close u). Notation fac := (Props_Float.fac u).
Lemma rel_2u c y : Rabs (c - y) <= 2 * u * Rabs y -> rel 3 c y.
Proof.
  intros E. assert (Hu := proj1 HA). destruct (Req_dec y 0) as [->|N].
  - exists 1. split; [|apply (fac_1 A u HA)]. rewrite Rabs_R0, Rmult_0_r in E. assert (E0 := Rabs_pos (c - 0)). assert (E1 : Rabs (c - 0) = 0) by lra. apply Rabs_eq_0 in E1. lra.
  - exists (c / y). split; [field; exact N|]. assert (B : Rabs (c / y - 1) <= 2 * u).
    { replace (c / y - 1) with ((c - y) * / y) by (field; exact N). rewrite Rabs_mult, Rabs_inv. assert (P := Rabs_pos_lt y N). apply (Rmult_le_reg_r (Rabs y)); [exact P|].
      rewrite Rmult_assoc, Rinv_l, Rmult_1_r by lra. exact E. }
    apply Rabs_le_between in B. assert (P := hk_pos A u HA 3). split.
    + replace ((1 - u) ^ 3) with (1 - 2 * u - u * (1 - 3 * u + u * u)) by ring. assert (0 <= u * (1 - 3 * u + u * u)) by (apply Rmult_le_pos; nra). lra.
    + apply (Rmult_le_reg_l ((1 - u) ^ 3)); [exact P|]. rewrite Rinv_r by lra. apply Rle_trans with ((1 - u) ^ 3 * (1 + 2 * u)); [apply Rmult_le_compat_l; lra|]. replace ((1 - u) ^ 3 * (1 + 2 * u)) with (1 - u * (1 + 3 * u - 5 * (u * u) + 2 * (u * u * u))) by ring.
      assert (0 <= u * (1 + 3 * u - 5 * (u * u) + 2 * (u * u * u))); [|lra]. apply Rmult_le_pos; [lra|]. assert (0 <= u * u) by nra. assert (u * u <= u) by nra. assert (0 <= u * u * u) by nra. nra.
Qed.
Lemma close_relmult j k x X y Y B : rel j x X -> close k y Y B -> close (j + k) (x * y) (X * Y) (Rabs X * B).
Proof.
  intros (t & -> & F) [H1 H2]. assert (B0 := Rabs_pos Y). assert (X0 := Rabs_pos X). assert (P := fac_pos A u HA j t F).
  assert (T1 := ihk_ge1 A u HA j). assert (T2 := ihk_ge1 A u HA k). assert (Q := hk_pos A u HA j). assert (Q1 := hk_le1 A u HA j). destruct F as [F1 F2].
  split; [rewrite Rabs_mult; apply Rmult_le_compat_l; lra|].
  replace (X * t * y - X * Y) with (X * (t * (y - Y) + (t - 1) * Y)) by ring. rewrite Rabs_mult.
  replace ((/ (1 - u) ^ (j + k) - 1) * (Rabs X * B)) with (Rabs X * ((/ (1 - u) ^ (j + k) - 1) * B)) by ring. apply Rmult_le_compat_l; [exact X0|].
  apply Rle_trans with (1 := Rabs_triang _ _). rewrite !Rabs_mult, (Rabs_pos_eq t) by lra. rewrite pow_add, Rinv_mult.
  set (hj := / (1 - u) ^ j) in *. set (hk := / (1 - u) ^ k) in *.
  assert (T : Rabs (t - 1) <= hj - 1).
  { apply Rabs_le_between. split; [|lra]. assert (hj * (1 - u) ^ j = 1) by (apply Rinv_l; lra). nra. }
  assert (B1 : 0 <= B) by lra.
  apply Rle_trans with (hj * ((hk - 1) * B) + (hj - 1) * B); [|nra]. apply Rplus_le_compat; apply Rmult_le_compat; try lra; apply Rabs_pos.
Qed.
Lemma fdot1_close2 l x : fdot1 A l x -> forall k L, Forall2 (fun ab XB => close k (fst ab * snd ab) (fst XB) (snd XB)) l L -> close (k + length l) x (tot (map fst L)) (tot (map snd L)).
Proof.
  induction 1 as [a b|l1 l2 l x y S1 IH1 S2 IH2 P|l1 l a b x S1 IH1 P]; intros k L H.
  - inversion H as [|? X ? ? Hy Hn]; subst. inversion Hn; subst. unfold tot, lsr. cbn [map fold_right length]. rewrite !Rplus_0_r. replace (k + 1)%nat with (S k) by lia. apply (close_rnd A u HA). exact Hy.
  - destruct (Permutation_Forall2 P H) as (L' & PL & H'). apply Forall2_app_inv_l in H'. destruct H' as (L1 & L2 & H1 & H2 & ->).
    rewrite (tot_perm _ _ (Permutation_map fst PL)), (tot_perm _ _ (Permutation_map snd PL)), !map_app, !tot_app. assert (N1 := fdot1_length A _ _ S1). assert (N2 := fdot1_length A _ _ S2). rewrite (Permutation_length P), app_length.
    replace (k + (length l1 + length l2))%nat with (S (k + (length l1 + length l2) - 1)) by lia. apply (close_rnd A u HA), (close_plus u); [apply (close_mono A u HA (k + length l1)); [lia|now apply IH1]|apply (close_mono A u HA (k + length l2)); [lia|now apply IH2]].
  - destruct (Permutation_Forall2 P H) as (L' & PL & H'). inversion H' as [|? X ? L1 HX H1]; subst. rewrite (tot_perm _ _ (Permutation_map fst PL)), (tot_perm _ _ (Permutation_map snd PL)), (Permutation_length P). cbn [length map].
    change (tot (fst X :: map fst L1)) with (fst X + tot (map fst L1)). change (tot (snd X :: map snd L1)) with (snd X + tot (map snd L1)). replace (k + S (length l1))%nat with (S (k + length l1)) by lia.
    apply (close_rnd A u HA), (close_plus u); [|now apply IH1]. apply (close_mono A u HA k); [lia|]. exact HX.
Qed.
Lemma fdot1_rel l x : fdot1 A l x -> forall k L, Forall2 (fun ab X => rel k (fst ab * snd ab) X) l L -> List.Forall (fun y => 0 <= y) L -> rel (k + length l) x (tot L).
Proof.
  induction 1 as [a b|l1 l2 l x y S1 IH1 S2 IH2 P|l1 l a b x S1 IH1 P]; intros k L H HL.
  - inversion H as [|? X ? ? Hy Hn]; subst. inversion Hn; subst. unfold tot, lsr. cbn [fold_right length]. rewrite !Rplus_0_r. replace (k + 1)%nat with (S k) by lia. apply (rel_rnd A u HA). exact Hy.
  - destruct (Permutation_Forall2 P H) as (L' & PL & H'). apply Forall2_app_inv_l in H'. destruct H' as (L1 & L2 & H1 & H2 & ->).
    rewrite (tot_perm _ _ PL), tot_app. assert (HL' : List.Forall (fun y => 0 <= y) (L1 ++ L2)) by exact (Permutation_Forall PL HL). apply Forall_app in HL'. destruct HL' as [P1 P2].
    assert (N1 := fdot1_length A _ _ S1). assert (N2 := fdot1_length A _ _ S2). rewrite (Permutation_length P), app_length.
    replace (k + (length l1 + length l2))%nat with (S (k + (length l1 + length l2) - 1)) by lia. apply (rel_rnd A u HA), (rel_plus A u HA); [now apply tot_pos|now apply tot_pos| |].
    + apply (rel_mono A u HA (k + length l1)); [lia|now apply IH1].
    + apply (rel_mono A u HA (k + length l2)); [lia|now apply IH2].
  - destruct (Permutation_Forall2 P H) as (L' & PL & H'). inversion H' as [|? X ? L1 HX H1]; subst. rewrite (tot_perm _ _ PL), (Permutation_length P). cbn [length].
    assert (HL' : List.Forall (fun y => 0 <= y) (X :: L1)) by exact (Permutation_Forall PL HL). inversion HL'; subst.
    change (tot (X :: L1)) with (X + tot L1). replace (k + S (length l1))%nat with (S (k + length l1)) by lia.
    apply (rel_rnd A u HA), (rel_plus A u HA); [assumption|now apply tot_pos|apply (rel_mono A u HA k); [lia|exact HX]|now apply IH1].
Qed.
(* ---- the code ---- *)
Definition s3 (f : axis -> R) : R := f AX + f AY + f AZ.
Lemma tot_axes (f : axis -> R) : tot (map f axes) = s3 f.
Proof. unfold tot, lsr, s3, axes. cbn [map fold_right]. ring. Qed.
Lemma unit_rel v w : fl_unit A v w -> v <> v0 /\ forall i, rel 5 (co i w) (co i v / sqrt (vdot v v)).
Proof.
  intros (d & n & Hd & -> & N & E).
  assert (D : rel 3 d (vdot v v)).
  { replace (vdot v v) with (tot (map (fun i => co i v * co i v) axes)) by (rewrite tot_axes; destruct v as [[x y] z]; unfold s3, co, vdot; ring).
    apply (fdot1_rel _ _ Hd 0).
    - cbn [map axes]. repeat apply Forall2_cons; [..|apply Forall2_nil]; cbn [fst snd]; apply (rel_refl A u HA).
    - cbn [map axes]. repeat apply List.Forall_cons; [nra|nra|nra|apply List.Forall_nil]. }
  assert (P : 0 <= vdot v v) by (destruct v as [[x y] z]; unfold vdot; nra).
  assert (Q : rel 4 (rnd A (sqrt d)) (sqrt (vdot v v))) by (apply (rel_rnd A u HA 3), (rel_sqrt A u HA); assumption).
  assert (N' : sqrt (vdot v v) <> 0). { intros Z. apply N. destruct Q as (t & -> & _). rewrite Z. ring. }
  split.
  - intros ->. apply N'. unfold vdot, v0. replace (0 * 0 + 0 * 0 + 0 * 0) with 0 by ring. apply sqrt_0.
  - intros i. rewrite E. apply (rel_rnd A u HA 4), (rel_div A u HA 0 4); [exact N'|apply (rel_refl A u HA)|exact Q].
Qed.
Lemma skew_rel k a b i j : (forall i, rel k (co i a) (co i b)) -> rel k (skew a i j) (skew b i j).
Proof.
  intros H. assert (O : forall x X, rel k x X -> rel k (- x) (- X)) by (intros x X (t & -> & F); exists t; split; [ring|exact F]).
  assert (Z : rel k 0 0) by (exists 1; split; [ring|apply (fac_1 A u HA)]).
  assert (H0 := H AX). assert (H1 := H AY). assert (H2 := H AZ). destruct a as [[a0 a1] a2], b as [[b0 b1] b2]. cbn [co] in *. destruct i, j; cbn [skew]; auto.
Qed.
(* the exact matrix and the sizes of its terms *)
Definition rot (w : vec) (theta : R) (i j : axis) : R := delta i j + sin theta * skew w i j + 2 * (sin (theta / 2)) ^ 2 * s3 (fun k => skew w i k * skew w k j).
Definition rota (w : vec) (theta : R) (i j : axis) : R := delta i j + Rabs (sin theta) * Rabs (skew w i j) + 2 * (sin (theta / 2)) ^ 2 * s3 (fun k => Rabs (skew w i k) * Rabs (skew w k j)).
Lemma rot_rodrigues w theta v i : co i (mvec (rodrigues w theta) v) = s3 (fun j => rot w theta i j * co j v).
Proof.
  destruct w as [[a b] c], v as [[x y] z]. unfold rodrigues. set (s := sin theta). set (c2 := 2 * sin (theta / 2) ^ 2).
  unfold rot, s3. fold s. fold c2. destruct i; unfold mvec, madd, mscal, mmul, mtr, mvec, mid, vadd, vscal, vdot, co, delta, skew; ring.
Qed.
Definition unit_of (v : vec) : vec := vscal (/ sqrt (vdot v v)) v.
Lemma matrix_close theta v M : fl_matrix A fsin theta v M -> v <> v0 /\ forall i j, close 23 (M i j) (rot (unit_of v) theta i j) (rota (unit_of v) theta i j).
Proof.
  intros (w & WW & Hw & HW & HM). cbv zeta in HM. destruct (unit_rel v w Hw) as [N R]. split; [exact N|].
  assert (R' : forall i, rel 5 (co i w) (co i (unit_of v))).
  { intros i. replace (co i (unit_of v)) with (co i v / sqrt (vdot v v)); [apply R|]. unfold unit_of. destruct v as [[x y] z], i; unfold co, vscal, Rdiv; ring. }
  assert (Sk : forall i j, rel 5 (skew w i j) (skew (unit_of v) i j)) by (intros; now apply skew_rel).
  set (e := unit_of v) in *. clearbody e. clear R R' Hw N.
  assert (S1 : rel 3 (fsin theta) (sin theta)) by (apply rel_2u, HS).
  assert (S2 : rel 3 (fsin (theta / 2)) (sin (theta / 2))) by (apply rel_2u, HS).
  assert (C : rel 8 (rnd A (2 * rnd A (fsin (theta / 2) * fsin (theta / 2)))) (2 * (sin (theta / 2)) ^ 2)).
  { apply (rel_rnd A u HA 7), (rel_mult A u HA 0 7); [apply (rel_refl A u HA)|]. replace (sin (theta / 2) ^ 2) with (sin (theta / 2) * sin (theta / 2)) by ring. apply (rel_rnd A u HA 6), (rel_mult A u HA 3 3); exact S2. }
  intros i j. rewrite HM. unfold rot, rota. apply (close_rnd A u HA 22), (close_plus u).
  - apply (close_mono A u HA 10); [lia|]. apply (close_rnd A u HA 9), (close_plus u).
    + apply (close_mono A u HA 0); [lia|]. replace (delta i j) with (Rabs (delta i j)) at 3 by (apply Rabs_pos_eq; destruct i, j; cbn; lra). apply (close_rel A u HA), (rel_refl A u HA).
    + rewrite <- Rabs_mult. apply (close_rel A u HA), (rel_rnd A u HA 8), (rel_mult A u HA 3 5); [exact S1|apply Sk].
  - apply (close_rnd A u HA 21). replace (2 * sin (theta / 2) ^ 2) with (Rabs (2 * sin (theta / 2) ^ 2)) at 2 by (apply Rabs_pos_eq; assert (T := pow2_ge_0 (sin (theta / 2))); lra).
    apply (close_relmult 8 13); [exact C|].
    assert (G := fdot1_close2 _ _ (HW i j) 10 (map (fun k => (skew e i k * skew e k j, Rabs (skew e i k) * Rabs (skew e k j))) axes)).
    rewrite !map_map in G. cbn [fst snd] in G. rewrite !tot_axes, map_length in G. apply G.
    cbn [map axes]. repeat apply Forall2_cons; [..|apply Forall2_nil]; cbn [fst snd]; rewrite <- Rabs_mult; apply (close_rel A u HA), (rel_mult A u HA 5 5); apply Sk.
Qed.
Lemma apply_close theta v M x y i : fl_matrix A fsin theta v M -> fl_apply A M x y ->
  close 26 (co i y) (co i (mvec (rodrigues (unit_of v) theta) x)) (s3 (fun j => rota (unit_of v) theta i j * Rabs (co j x))).
Proof.
  intros HM HX. destruct (matrix_close theta v M HM) as [_ C]. rewrite rot_rodrigues.
  assert (G := fdot1_close2 _ _ (HX i) 23 (map (fun j => (rot (unit_of v) theta i j * co j x, rota (unit_of v) theta i j * Rabs (co j x))) axes)).
  rewrite !map_map in G. cbn [fst snd] in G. rewrite !tot_axes, map_length in G. apply G.
  cbn [map axes]. repeat apply Forall2_cons; [..|apply Forall2_nil]; cbn [fst snd].
  all: match goal with |- Props_Float.close _ _ (?a * ?b) (?c * ?b) (?d * _) => rewrite (Rmult_comm a b), (Rmult_comm c b), (Rmult_comm d); apply (close_mult u); apply C end.
Qed.
Lemma abs_sq x : Rabs x * Rabs x = x * x.
Proof. rewrite <- Rabs_mult. apply Rabs_pos_eq. nra. Qed.
(* ---- in the norm ---- *)
Lemma norm_le_sq (v : vec) (B : R) : 0 <= B -> vdot v v <= B * B -> vnorm v <= B.
Proof.
  intros HB H. destruct v as [[x y] z]. unfold vnorm, vdot in *. rewrite <- (sqrt_square B) by exact HB. apply sqrt_le_1_alt. lra.
Qed.
Lemma norm_sq (v : vec) : vnorm v * vnorm v = vdot v v.
Proof. destruct v as [[x y] z]. unfold vnorm, vdot. rewrite sqrt_sqrt; [ring|]. assert (A1 := pow2_ge_0 x). assert (A2 := pow2_ge_0 y). assert (A3 := pow2_ge_0 z). lra. Qed.
Lemma norm_ge0 (v : vec) : 0 <= vnorm v.
Proof. destruct v as [[x y] z]. apply sqrt_pos. Qed.
Lemma norm_comp (d b : vec) (g : R) : 0 <= g -> (forall i, Rabs (co i d) <= g * co i b) -> vnorm d <= g * vnorm b.
Proof.
  intros Hg H. assert (N := norm_ge0 b). apply norm_le_sq; [now apply Rmult_le_pos|]. replace (g * vnorm b * (g * vnorm b)) with (g * g * (vnorm b * vnorm b)) by ring. rewrite norm_sq.
  assert (K : forall i, co i d * co i d <= (g * co i b) * (g * co i b)).
  { intros i. rewrite <- (abs_sq (co i d)). assert (P := Rabs_pos (co i d)). specialize (H i). apply Rmult_le_compat; lra. }
  assert (K0 := K AX). assert (K1 := K AY). assert (K2 := K AZ). destruct d as [[d0 d1] d2], b as [[b0 b1] b2]. cbn [co] in *. unfold vdot. lra.
Qed.
Definition av (v : vec) : vec := let '(x, y, z) := v in (Rabs x, Rabs y, Rabs z).
Definition aw (w a : vec) : vec := let '(p, q, r) := w in let '(x, y, z) := a in (Rabs r * y + Rabs q * z, Rabs r * x + Rabs p * z, Rabs q * x + Rabs p * y).
Lemma av_norm v : vnorm (av v) = vnorm v.
Proof. destruct v as [[x y] z]. unfold av, vnorm. f_equal. rewrite <- !Rsqr_pow2, <- !Rsqr_abs. reflexivity. Qed.
Lemma aw_norm w a : vdot w w = 1 -> vnorm (aw w a) <= 3 / 2 * vnorm a.
Proof.
  intros H. apply norm_le_sq; [assert (N := norm_ge0 a); lra|]. replace (3 / 2 * vnorm a * (3 / 2 * vnorm a)) with (9 / 4 * (vnorm a * vnorm a)) by field. rewrite norm_sq.
  destruct w as [[p q] r], a as [[x y] z]. unfold aw, vdot in *. rewrite <- (abs_sq p), <- (abs_sq q), <- (abs_sq r) in H.
  set (P := Rabs p) in *. set (Q := Rabs q) in *. set (S0 := Rabs r) in *. clearbody P Q S0.
  assert (C : forall a b c d, (a * c + b * d) * (a * c + b * d) <= (a * a + b * b) * (c * c + d * d)).
  { intros. assert (0 <= (a * d - b * c) * (a * d - b * c)) by apply Rle_0_sqr. lra. }
  assert (C1 := C S0 Q y z). assert (C2 := C S0 P x z). assert (C3 := C Q P x y).
  assert (0 <= P * P) by apply Rle_0_sqr. assert (0 <= Q * Q) by apply Rle_0_sqr. assert (0 <= S0 * S0) by apply Rle_0_sqr.
  assert (0 <= x * x) by apply Rle_0_sqr. assert (0 <= y * y) by apply Rle_0_sqr. assert (0 <= z * z) by apply Rle_0_sqr.
  set (pp := P * P) in *. set (qq := Q * Q) in *. set (ss := S0 * S0) in *. set (xx := x * x) in *. set (yy := y * y) in *. set (zz := z * z) in *. clearbody pp qq ss xx yy zz.
  apply Rle_trans with ((ss + qq) * (yy + zz) + (ss + pp) * (xx + zz) + (qq + pp) * (xx + yy)); [lra|].
  apply Rle_trans with (2 * (pp + qq + ss) * (xx + yy + zz)); [|rewrite H; lra]. assert (0 <= pp * xx) by now apply Rmult_le_pos. assert (0 <= qq * yy) by now apply Rmult_le_pos. assert (0 <= ss * zz) by now apply Rmult_le_pos.
  assert (0 <= pp * yy) by now apply Rmult_le_pos. assert (0 <= pp * zz) by now apply Rmult_le_pos. assert (0 <= qq * xx) by now apply Rmult_le_pos. assert (0 <= qq * zz) by now apply Rmult_le_pos. assert (0 <= ss * xx) by now apply Rmult_le_pos. assert (0 <= ss * yy) by now apply Rmult_le_pos. lra.
Qed.
Lemma sizes w theta x : vdot w w = 1 -> exists b, (forall i, co i b = s3 (fun j => rota w theta i j * Rabs (co j x))) /\ vnorm b <= 7 * vnorm x.
Proof.
  intros H. set (s := Rabs (sin theta)). set (c := 2 * (sin (theta / 2)) ^ 2). set (a := av x).
  exists (vadd (vadd a (vscal s (aw w a))) (vscal c (aw w (aw w a)))). split.
  - intros i. unfold a. destruct w as [[p q] r], x as [[x y] z]. unfold s3, rota. fold s. fold c. destruct i; unfold av, aw, vadd, vscal, co, delta, skew, s3; rewrite ?Rabs_Ropp, ?Rabs_R0; ring.
  - assert (N1 := aw_norm w a H). assert (N2 := aw_norm w (aw w a) H). assert (N0 : vnorm a = vnorm x) by apply av_norm. assert (P0 := norm_ge0 a). assert (P1 := norm_ge0 (aw w a)). assert (P2 := norm_ge0 (aw w (aw w a))).
    assert (Hs : 0 <= s <= 1). { split; [apply Rabs_pos|]. apply Rabs_le_between. assert (B := SIN_bound theta). lra. }
    assert (Hc : 0 <= c <= 2). { unfold c. assert (B := SIN_bound (theta / 2)). set (k := sin (theta / 2)) in *. clearbody k. nra. }
    assert (Sc : forall k v, 0 <= k -> vnorm (vscal k v) <= k * vnorm v).
    { intros k v Hk. assert (Nv := norm_ge0 v). apply norm_le_sq; [now apply Rmult_le_pos|]. replace (k * vnorm v * (k * vnorm v)) with (k * k * (vnorm v * vnorm v)) by ring. rewrite norm_sq. destruct v as [[v1 v2] v3]. unfold vdot, vscal. lra. }
    apply Rle_trans with (1 := vnorm_triangle _ _). assert (T := vnorm_triangle a (vscal s (aw w a))). assert (S1 := Sc s (aw w a) ltac:(lra)). assert (S2 := Sc c (aw w (aw w a)) ltac:(lra)).
    assert (s * vnorm (aw w a) <= 1 * vnorm (aw w a)) by (apply Rmult_le_compat_r; lra). assert (c * vnorm (aw w (aw w a)) <= 2 * vnorm (aw w (aw w a))) by (apply Rmult_le_compat_r; lra). lra.
Qed.
Lemma after_ge k : 0 <= after u k.
Proof. unfold after. assert (G := ihk_ge1 A u HA k). lra. Qed.
Lemma u_le_move : 0 <= u <= move_error u.
Proof.
  assert (Hu := proj1 HA). split; [lra|]. unfold move_error. assert (G := ihk_mono A u HA 1 26 ltac:(lia)). unfold after. rewrite pow_1 in G.
  assert (1 + u <= / (1 - u)). { apply (Rmult_le_reg_l (1 - u)); [lra|]. rewrite Rinv_r by lra. nra. } lra.
Qed.
(* one rotation, one translation of one point *)
Lemma turn_error theta v M x y : fl_matrix A fsin theta v M -> fl_apply A M x y -> vnorm (vsub y (axis_rot v theta x)) <= move_error u * vnorm x.
Proof.
  intros HM HX. destruct (matrix_close theta v M HM) as [N _]. destruct (sizes (unit_of v) theta x (unit_norm v N)) as (b & Hb & Nb).
  apply Rle_trans with (after u 26 * vnorm b).
  - apply norm_comp; [apply after_ge|]. intros i. destruct (apply_close theta v M x y i HM HX) as [_ C]. rewrite <- Hb in C.
    replace (co i (vsub y (axis_rot v theta x))) with (co i y - co i (mvec (rodrigues (unit_of v) theta) x)); [exact C|].
    unfold axis_rot. fold (unit_of v). destruct (mvec (rodrigues (unit_of v) theta) x) as [[a1 a2] a3], y as [[y1 y2] y3], i; reflexivity.
  - unfold move_error. assert (G := after_ge 26). apply Rle_trans with (after u 26 * (7 * vnorm x)); [now apply Rmult_le_compat_l|lra].
Qed.
Lemma shift_error v t w : fl_shift A v t w -> vnorm (vsub w (vadd v t)) <= move_error u * (vnorm v + vnorm t).
Proof.
  intros H. assert (U := u_le_move). apply Rle_trans with (u * vnorm (av (vadd v t))).
  - apply norm_comp; [lra|]. intros i. destruct HA as (_ & Hr & _). specialize (Hr (co i v + co i t)). rewrite <- H in Hr.
    destruct v as [[v1 v2] v3], t as [[t1 t2] t3], w as [[w1 w2] w3], i; exact Hr.
  - rewrite av_norm. assert (T := vnorm_triangle v t). assert (N := norm_ge0 (vadd v t)). apply Rmult_le_compat; lra.
Qed.
(* ---- histories ---- *)
Definition near_pt (n : nat) (S0 : R) (p q : pt) : Prop :=
  pm q = pm p /\ vnorm (pp p) <= S0 /\ vnorm (vsub (pp q) (pp p)) <= ((1 + move_error u) ^ n - 1) * S0.
Definition near_arr (n : nat) (S0 : R) (a b : parr) : Prop :=
  match a, b with Row p, Row q => near_pt n S0 p q | Rows l, Rows m => Forall2 (near_pt n S0) l m | _, _ => False end.
Lemma Forall2_chain {X Y Z} (P : X -> Y -> Prop) (Q : Y -> Z -> Prop) (f : X -> X) (T : X -> Z -> Prop) l m k :
  (forall x y z, P x y -> Q y z -> T (f x) z) -> Forall2 P l m -> Forall2 Q m k -> Forall2 T (map f l) k.
Proof.
  intros H F. revert k. induction F as [|x y l m HP F IH]; intros k G; inversion G; subst; cbn [map]; constructor; eauto.
Qed.
Lemma grow n S0 S1 d e : 0 <= S0 -> S0 <= S1 -> 0 <= e -> d <= ((1 + e) ^ n - 1) * S0 + e * ((1 + e) ^ n * S0 + (S1 - S0)) -> d <= ((1 + e) ^ Datatypes.S n - 1) * S1.
Proof.
  intros H0 H1 He H. apply Rle_trans with (1 := H). cbn [pow]. assert (P : 1 <= (1 + e) ^ n) by (apply pow_R1_Rle; lra). set (k := (1 + e) ^ n) in *. clearbody k.
  replace ((k - 1) * S0 + e * (k * S0 + (S1 - S0))) with (((1 + e) * k - 1) * S0 + e * (S1 - S0)) by ring. assert (e * (S1 - S0) <= ((1 + e) * k - 1) * (S1 - S0)); [|lra].
  apply Rmult_le_compat_r; [lra|]. assert ((1 + e) * 1 <= (1 + e) * k) by (apply Rmult_le_compat_l; lra). lra.
Qed.
Lemma norm_sub_bound (a b : vec) : vnorm a <= vnorm (vsub a b) + vnorm b.
Proof. assert (T := vnorm_triangle (vsub a b) b). replace (vadd (vsub a b) b) with a in T; [exact T|]. destruct a as [[? ?] ?], b as [[? ?] ?]. unfold vadd, vsub. apply f_equal2; [apply f_equal2|]; ring. Qed.
Lemma norm_split (a b c : vec) : vnorm (vsub a c) <= vnorm (vsub a b) + vnorm (vsub b c).
Proof. assert (T := vnorm_triangle (vsub a b) (vsub b c)). replace (vadd (vsub a b) (vsub b c)) with (vsub a c) in T; [exact T|]. destruct a as [[? ?] ?], b as [[? ?] ?], c as [[? ?] ?]. unfold vadd, vsub. apply f_equal2; [apply f_equal2|]; ring. Qed.
Lemma far n S0 p q : near_pt n S0 p q -> vnorm (pp q) <= (1 + move_error u) ^ n * S0.
Proof. intros (_ & H1 & H2). assert (T := norm_sub_bound (pp q) (pp p)). lra. Qed.
Lemma shift_pt n S0 t p q r : near_pt n S0 p q -> fl_row (fun v w => fl_shift A v t w) q r -> near_pt (Datatypes.S n) (S0 + vnorm t) (translate_pt p t) r.
Proof.
  intros H [M Sh]. assert (F := far _ _ _ _ H). destruct H as (M0 & H1 & H2). assert (U := u_le_move). assert (N := norm_ge0 (pp p)). assert (Nt := norm_ge0 t).
  split; [cbn; congruence|]. split; [cbn [translate_pt pp]; assert (T := vnorm_triangle (pp p) t); lra|].
  apply (grow n S0); [lra|lra|lra|]. cbn [translate_pt pp]. apply Rle_trans with (1 := norm_split _ (vadd (pp q) t) _). assert (E := shift_error _ _ _ Sh).
  replace (vsub (vadd (pp q) t) (vadd (pp p) t)) with (vsub (pp q) (pp p)) by (destruct (pp q) as [[? ?] ?], (pp p) as [[? ?] ?], t as [[? ?] ?]; unfold vadd, vsub; apply f_equal2; [apply f_equal2|]; ring).
  assert (move_error u * (vnorm (pp q) + vnorm t) <= move_error u * ((1 + move_error u) ^ n * S0 + (S0 + vnorm t - S0))) by (apply Rmult_le_compat_l; lra). lra.
Qed.
Lemma rot_sub n theta a b : n <> v0 -> vnorm (vsub (axis_rot n theta a) (axis_rot n theta b)) = vnorm (vsub a b).
Proof.
  intros H. destruct (axis_rot_is_rotation n theta H) as [Ad Sc Do _ _ _]. assert (V : forall x y, vsub x y = vadd x (vscal (-1) y)) by (intros [[? ?] ?] [[? ?] ?]; unfold vsub, vadd, vscal; apply f_equal2; [apply f_equal2|]; ring).
  rewrite !V, <- Sc, <- Ad. assert (W : forall x, vnorm x = sqrt (vdot x x)) by (intros [[? ?] ?]; unfold vnorm, vdot; f_equal; ring). now rewrite !W, Do.
Qed.
Lemma rot_norm n theta a : n <> v0 -> vnorm (axis_rot n theta a) = vnorm a.
Proof. intros H. destruct (axis_rot_is_rotation n theta H) as [_ _ Do _ _ _]. assert (W : forall x, vnorm x = sqrt (vdot x x)) by (intros [[? ?] ?]; unfold vnorm, vdot; f_equal; ring). now rewrite !W, Do. Qed.
Lemma turn_pt n S0 theta v M p q r : fl_matrix A fsin theta v M -> v <> v0 -> near_pt n S0 p q -> fl_row (fl_apply A M) q r ->
  near_pt (Datatypes.S n) S0 (mkpt (pm p) (axis_rot v theta (pp p))) r.
Proof.
  intros HM Nv H [E Ap]. assert (F := far _ _ _ _ H). destruct H as (M0 & H1 & H2). assert (U := u_le_move). assert (N := norm_ge0 (pp p)).
  split; [cbn; congruence|]. split; [cbn [pp]; rewrite rot_norm; assumption|]. apply (grow n S0); [lra|lra|lra|]. cbn [pp].
  apply Rle_trans with (1 := norm_split _ (axis_rot v theta (pp q)) _). rewrite rot_sub by exact Nv. assert (T := turn_error _ _ _ _ _ HM Ap).
  assert (move_error u * vnorm (pp q) <= move_error u * ((1 + move_error u) ^ n * S0 + (S0 - S0))) by (apply Rmult_le_compat_l; lra). lra.
Qed.
Lemma moves_near ms a' b' : fl_moves A fsin ms a' b' -> forall n S0 a, near_arr n S0 a a' ->
  exists b, exact_moves ms a = Ok b /\ near_arr (n + length ms) (S0 + way ms) b b'.
Proof.
  induction 1 as [a'|t ms a' b' c' H1 _ IH|theta v ms a' b' c' H1 _ IH]; intros n S0 a H.
  - exists a. split; [reflexivity|]. cbn [length way]. rewrite Nat.add_0_r, Rplus_0_r. exact H.
  - destruct (IH (Datatypes.S n) (S0 + vnorm t) (translate_point_array a t)) as (b & E & Hb).
    { destruct a as [p|l], a' as [p'|l'], b' as [p''|l'']; cbn in *; try contradiction; [now apply (shift_pt n S0 t p p')|].
      apply (Forall2_chain _ _ (fun p => translate_pt p t) _ l l' l'' (fun x y z => shift_pt n S0 t x y z) H H1). }
    exists b. split; [exact E|]. cbn [length way]. rewrite Nat.add_succ_r. replace (S0 + (vnorm t + way ms)) with (S0 + vnorm t + way ms) by ring. exact Hb.
  - destruct H1 as (M & HM & H1). destruct (matrix_close theta v M HM) as [Nv _].
    destruct (IH (Datatypes.S n) S0 (match a with Row p => Row (mkpt (pm p) (axis_rot v theta (pp p))) | Rows l => Rows (map (fun p => mkpt (pm p) (axis_rot v theta (pp p))) l) end)) as (b & E & Hb).
    { destruct a as [p|l], a' as [p'|l'], b' as [p''|l'']; cbn in *; try contradiction; [now apply (turn_pt n S0 theta v M p p')|].
      apply (Forall2_chain _ _ (fun p => mkpt (pm p) (axis_rot v theta (pp p))) _ l l' l'' (fun x y z => turn_pt n S0 theta v M x y z HM Nv) H H1). }
    exists b. split.
    + cbn [exact_moves exact_move]. rewrite rotate_array_spec by exact Nv. exact E.
    + cbn [length way]. rewrite Nat.add_succ_r. exact Hb.
Qed.
End Rounding.
(* ==== C75 ==== *)
Theorem C75_translate : forall A u a t b, accurate u A -> fl_translate_point_array A a t b ->
  Forall2 (fun p q => pm q = pm p /\ forall i, Rabs (co i (pp q) - co i (pp p)) <= u * Rabs (co i (pp p))) (rows (translate_point_array a t)) (rows b).
Proof.
  intros A u a t b (_ & Hr & _) H.
  assert (G : forall p q, fl_row (fun v w => fl_shift A v t w) p q -> pm q = pm (translate_pt p t) /\ forall i, Rabs (co i (pp q) - co i (pp (translate_pt p t))) <= u * Rabs (co i (pp (translate_pt p t)))).
  { intros p q [M Sh]. split; [exact M|]. intros i. rewrite Sh. cbn [translate_pt pp]. replace (co i (vadd (pp p) t)) with (co i (pp p) + co i t); [apply Hr|]. destruct (pp p) as [[? ?] ?], t as [[? ?] ?], i; reflexivity. }
  destruct a as [p|l], b as [q|m]; cbn in H; try contradiction; cbn [translate_point_array rows]; [constructor; [now apply G|constructor]|].
  induction H; cbn [map]; constructor; auto.
Qed.
Theorem C75_rotate : forall A u fsin a theta n b, accurate u A -> accurate_sin u fsin -> fl_rotate_point_array A fsin a theta n b ->
  exists c, rotate_point_array a theta n = Ok c /\
    Forall2 (fun pq r => pm r = pm (snd pq) /\ vnorm (vsub (pp r) (pp (snd pq))) <= move_error u * vnorm (pp (fst pq))) (combine (rows a) (rows c)) (rows b).
Proof.
  intros A u fsin a theta n b HA HS (M & HM & H). destruct (matrix_close A u HA fsin HS theta n M HM) as [Nv _].
  rewrite rotate_array_spec by exact Nv. eexists. split; [reflexivity|].
  assert (G : forall p q, fl_row (fl_apply A M) p q -> pm q = pm p /\ vnorm (vsub (pp q) (axis_rot n theta (pp p))) <= move_error u * vnorm (pp p)).
  { intros p q [E Ap]. split; [exact E|]. now apply (turn_error A u HA fsin HS theta n M). }
  destruct a as [p|l], b as [q|m]; cbn in H; try contradiction; cbn [rows combine]; [constructor; [cbn [fst snd pm pp]; now apply G|constructor]|].
  induction H; cbn [map combine]; constructor; auto. cbn [fst snd pm pp]. now apply G.
Qed.
(* any number of moves: the n-th result is within ((1+e)^n - 1) times the distance the points can have from the origin *)
Theorem C75_history : forall A u fsin ms a b (r : R), accurate u A -> accurate_sin u fsin -> (forall p, In p (rows a) -> vnorm (pp p) <= r) ->
  fl_moves A fsin ms a b ->
  exists c, exact_moves ms a = Ok c /\
    Forall2 (fun p q => pm q = pm p /\ vnorm (pp p) <= r + way ms /\ vnorm (vsub (pp q) (pp p)) <= ((1 + move_error u) ^ length ms - 1) * (r + way ms)) (rows c) (rows b).
Proof.
  intros A u fsin ms a b r HA HS Hr H.
  assert (N0 : forall p, vnorm (pp p) <= r -> near_pt u 0 r p p).
  { intros p Hp. split; [reflexivity|]. split; [exact Hp|]. cbn [pow]. replace (vsub (pp p) (pp p)) with (0, 0, 0) by (destruct (pp p) as [[? ?] ?]; unfold vsub; apply f_equal2; [apply f_equal2|]; ring).
    unfold vnorm, vdot. replace (0 ^ 2 + 0 ^ 2 + 0 ^ 2) with 0 by ring. rewrite sqrt_0. lra. }
  destruct (moves_near A u HA fsin HS ms a b H 0 r a) as (c & E & Hc).
  { clear H. destruct a as [p|l]; unfold near_arr; cbn [rows] in Hr; [apply N0, Hr; now left|]. induction l as [|p l IH]; constructor; [apply N0, Hr; now left|]. apply IH. intros q Hq. apply Hr. now right. }
  exists c. split; [exact E|]. destruct c as [p|l], b as [q|m]; cbn in Hc; try contradiction; cbn [rows]; [constructor; [exact Hc|constructor]|exact Hc].
Qed.
(* finite results exist unless some axis is zero *)
Lemma dot_ex A l : exists x, fdot A l x.
Proof.
  assert (G : forall ab l, exists x, fdot1 A (ab :: l) x).
  { intros [a b] l'. revert a b. induction l' as [|[a' b'] l' IH]; intros a b; [eexists; apply fd_one|]. destruct (IH a' b') as (x & Hx). eexists. apply (fd_add A ((a, b) :: nil) ((a', b') :: l')); [apply fd_one|exact Hx|apply Permutation_refl]. }
  destruct l as [|ab l]; [now exists 0|]. destruct (G ab l) as (x & Hx). now exists x.
Qed.
Lemma vec_of (f : axis -> R) : exists v, forall i, co i v = f i.
Proof. exists (f AX, f AY, f AZ). intros []; reflexivity. Qed.
Lemma matrix_ex A u fsin theta n : accurate u A -> n <> v0 -> exists M, fl_matrix A fsin theta n M.
Proof.
  intros HA Hn. destruct (dot_ex A (map (fun i => (co i n, co i n)) axes)) as (d & Hd).
  assert (D : Props_Float.rel u 3 d (vdot n n)).
  { replace (vdot n n) with (tot (map (fun i => co i n * co i n) axes)) by (rewrite tot_axes; destruct n as [[x y] z]; unfold s3, co, vdot; ring).
    apply (fdot1_rel A u HA _ _ Hd 0).
    - cbn [map axes]. repeat apply Forall2_cons; [..|apply Forall2_nil]; cbn [fst snd]; apply (rel_refl A u HA).
    - cbn [map axes]. repeat apply List.Forall_cons; [nra|nra|nra|apply List.Forall_nil]. }
  assert (P := vdot_pos n Hn).
  assert (Q : Props_Float.rel u 4 (rnd A (sqrt d)) (sqrt (vdot n n))) by (apply (rel_rnd A u HA 3), (rel_sqrt A u HA); [lra|exact D]).
  assert (N : rnd A (sqrt d) <> 0). { destruct Q as (t & -> & F). assert (Ft := fac_pos A u HA _ _ F). assert (S0 := sqrt_lt_R0 _ P). apply Rgt_not_eq. apply Rmult_lt_0_compat; assumption. }
  destruct (vec_of (fun i => rnd A (co i n / rnd A (sqrt d)))) as (w & Hw).
  assert (X : forall i j, exists x, fdot A (map (fun k => (skew w i k, skew w k j)) axes) x) by (intros; apply dot_ex).
  assert (Y : exists WW : axis -> axis -> R, forall i j, fdot A (map (fun k => (skew w i k, skew w k j)) axes) (WW i j)).
  { destruct (X AX AX) as (x00 & E00), (X AX AY) as (x01 & E01), (X AX AZ) as (x02 & E02), (X AY AX) as (x10 & E10), (X AY AY) as (x11 & E11), (X AY AZ) as (x12 & E12), (X AZ AX) as (x20 & E20), (X AZ AY) as (x21 & E21), (X AZ AZ) as (x22 & E22).
    exists (fun i j => match i, j with AX, AX => x00 | AX, AY => x01 | AX, AZ => x02 | AY, AX => x10 | AY, AY => x11 | AY, AZ => x12 | AZ, AX => x20 | AZ, AY => x21 | AZ, AZ => x22 end). intros [] []; assumption. }
  destruct Y as (WW & HW). eexists. exists w, WW. split; [exists d, (rnd A (sqrt d)); now repeat split|]. split; [exact HW|]. cbv zeta. intros i j. reflexivity.
Qed.
Theorem C75_results_exist : forall A u fsin ms a, accurate u A -> (forall theta n, In (MTurn theta n) ms -> n <> v0) -> exists b, fl_moves A fsin ms a b.
Proof.
  intros A u fsin ms a HA. revert a. induction ms as [|m ms IH]; intros a H; [exists a; constructor|].
  assert (H' : forall theta n, In (MTurn theta n) ms -> n <> v0) by (intros theta n Hi; apply (H theta); now right).
  assert (Ar : forall g : vec -> vec -> Prop, (forall v, exists w, g v w) -> exists b, fl_array g a b).
  { intros g Hg. assert (R1 : forall p, exists q, fl_row g p q) by (intros p; destruct (Hg (pp p)) as (w & Hw); exists (mkpt (pm p) w); now split).
    destruct a as [p|l]; [destruct (R1 p) as (q & Hq); now exists (Row q)|]. assert (L : exists m, Forall2 (fl_row g) l m).
    { clear IH H H'. induction l as [|p l (m0 & Hm)]; [exists nil; constructor|]. destruct (R1 p) as (q & Hq). exists (q :: m0). now constructor. } destruct L as (m0 & Hm). now exists (Rows m0). }
  destruct m as [t|theta n].
  - destruct (Ar (fun v w => fl_shift A v t w)) as (b & Hb); [intros v; apply vec_of|]. destruct (IH b H') as (c & Hc). exists c. now apply (flm_shift A fsin t ms a b).
  - destruct (matrix_ex A u fsin theta n HA (H theta n (or_introl eq_refl))) as (M & HM).
    destruct (Ar (fl_apply A M)) as (b & Hb).
    { intros v. destruct (dot_ex A (map (fun j => (M AX j, co j v)) axes)) as (x & Hx), (dot_ex A (map (fun j => (M AY j, co j v)) axes)) as (y & Hy), (dot_ex A (map (fun j => (M AZ j, co j v)) axes)) as (z & Hz). exists (x, y, z). intros []; assumption. }
    destruct (IH b H') as (c & Hc). exists c. apply (flm_turn A fsin theta n ms a b); [now exists M|exact Hc].
Qed.
Lemma Forall2_weaken {X Y} (P Q : X -> Y -> Prop) l m : Forall2 P l m -> (forall x y, P x y -> Q x y) -> Forall2 Q l m.
Proof. induction 1; constructor; auto. Qed.
(* in double precision: at most 364 units of 2^-52 per move *)
Lemma pow_after e n : 0 <= e <= 1 / 4 -> INR n * e <= 1 / 2 -> (1 + e) ^ n - 1 <= 2 * INR n * e.
Proof.
  intros He Hn. apply Rle_trans with (after e n); [|apply (C64_size e n); assumption]. unfold after. assert (P : 0 < (1 - e) ^ n) by (apply pow_lt; lra).
  assert (G : (1 + e) ^ n * (1 - e) ^ n <= 1). { rewrite <- Rpow_mult_distr. rewrite <- (pow1 n) at 3. apply pow_incr. nra. }
  assert ((1 + e) ^ n <= / (1 - e) ^ n); [|lra]. apply (Rmult_le_reg_r ((1 - e) ^ n)); [exact P|]. rewrite Rinv_l by lra. exact G.
Qed.
Lemma growth64 n : (n <= 1000 * 1000 * 1000)%nat -> (1 + move_error (/ 2 ^ 53)) ^ n - 1 <= INR n * (364 / 2 ^ 52).
Proof.
  intros Hn. assert (Hu := proj1 C64_binary64_is_accurate).
  assert (P52 : 0 < 2 ^ 52) by (apply pow_lt; lra).
  assert (E53 : 2 ^ 53 = 2 * 2 ^ 52) by (cbn [pow]; ring).
  assert (U : / 2 ^ 53 = / 2 ^ 52 / 2) by (rewrite E53; field; lra).
  assert (I52 : 0 < / 2 ^ 52) by now apply Rinv_0_lt_compat.
  assert (Big : 4000 * (1000 * 1000 * 1000) <= 2 ^ 52) by (cbn [pow]; lra).
  assert (Sm : / 2 ^ 52 * (4000 * (1000 * 1000 * 1000)) <= 1). { apply (Rmult_le_reg_r (2 ^ 52)); [exact P52|]. rewrite Rmult_1_l. replace (/ 2 ^ 52 * (4000 * (1000 * 1000 * 1000)) * 2 ^ 52) with (4000 * (1000 * 1000 * 1000)) by (field; lra). exact Big. }
  set (v := / 2 ^ 52) in *.
  assert (E26 : 0 <= after (/ 2 ^ 53) 26 <= 26 * v).
  { destruct (C64_size (/ 2 ^ 53) 26 Hu) as [G1 G2]; [rewrite U; replace (INR 26) with 26 by (cbn [INR]; ring); lra|]. split; [exact G1|]. apply Rle_trans with (1 := G2). rewrite U. replace (INR 26) with 26 by (cbn [INR]; ring). lra. }
  assert (Me : 0 <= move_error (/ 2 ^ 53) <= 182 * v) by (unfold move_error; lra).
  assert (Nn : INR n <= 1000 * 1000 * 1000). { rewrite INR_IZR_INZ, <- !mult_IZR. apply IZR_le. lia. }
  assert (N0 := pos_INR n).
  apply Rle_trans with (2 * INR n * move_error (/ 2 ^ 53)).
    - apply pow_after; [lra|]. apply Rle_trans with (1000 * 1000 * 1000 * (182 * v)); [apply Rmult_le_compat; lra|lra].
    - unfold Rdiv. fold v. apply Rle_trans with (2 * INR n * (182 * v)); [apply Rmult_le_compat_l; lra|lra].
Qed.
Lemma sin64 : accurate_sin (/ 2 ^ 53) (fun x => rnd binary64 (sin x)).
Proof. intros x. destruct C64_binary64_is_accurate as (H & G & _). apply Rle_trans with (1 := G _). apply Rmult_le_compat_r; [apply Rabs_pos|lra]. Qed.
Theorem C75_binary64 : forall ms a b (r : R), (length ms <= 1000 * 1000 * 1000)%nat -> (forall p, In p (rows a) -> vnorm (pp p) <= r) ->
  fl_moves binary64 (fun x => rnd binary64 (sin x)) ms a b ->
  exists c, exact_moves ms a = Ok c /\
    Forall2 (fun p q => pm q = pm p /\ vnorm (vsub (pp q) (pp p)) <= INR (length ms) * (364 / 2 ^ 52) * (r + way ms)) (rows c) (rows b).
Proof.
  intros ms a b r Hn Hr H.
  destruct (C75_history _ _ _ ms a b r C64_binary64_is_accurate sin64 Hr H) as (c & E & F). exists c. split; [exact E|]. assert (Gr := growth64 (length ms) Hn).
  apply (Forall2_weaken _ _ _ _ F). intros p q (M & B & D). split; [exact M|]. apply Rle_trans with (1 := D). apply Rmult_le_compat_r; [|exact Gr]. assert (N := norm_ge0 (pp p)). lra.
Qed.
Example C75_case : exists b, fl_moves binary64 (fun x => rnd binary64 (sin x)) (MTurn 1 (0, 0, 2) :: MShift (1, 2, 3) :: MTurn 2 (1, 1, 0) :: nil) (Rows (mkpt 1 (0, 1, 0) :: mkpt 2 (1, 0, 0) :: nil)) b.
Proof.
  apply (C75_results_exist _ _ _ _ _ C64_binary64_is_accurate). intros theta n [E|[E|[E|[]]]]; try discriminate; injection E as _ <-; unfold v0; intros Z; injection Z; intros; lra.
Qed.
Print Assumptions C75_translate.
Print Assumptions C75_rotate.
Print Assumptions C75_history.
Print Assumptions C75_results_exist.
Print Assumptions C75_binary64.
