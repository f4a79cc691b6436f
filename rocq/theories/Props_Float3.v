(* C76: forces and torques computed in rounded arithmetic between arrays that were themselves moved about in rounded
   arithmetic, against the exact forces and torques of the exactly moved arrays. *)
From Coq Require Import Reals Lra Lia List Permutation.
From Coquelicot Require Import Coquelicot.
From Verif Require Import Glib GlibSpec GlibProofs GlibProofs2 FloatSpec FlGlib NewtonSpec Newton Irreg2 Props_Float FlMoves Props_Float2.
Import ListNotations.
Open Scope R_scope.

(* ---- specification ---- *)
(* the sum over all pairs of the sizes of their attractions, G m m'/d^2 *)
Definition total_pull (l1 l2 : list pt) : R := lsr (fun p => lsr (fun q => BIG_G * Rabs (pm p) * Rabs (pm q) / vnorm (vsub (pp q) (pp p)) ^ 2) l2) l1.
(* how far n rounded moves can take a point from its exact place *)
Definition drift (u : R) (ms : list move) (r : R) : R := ((1 + move_error u) ^ length ms - 1) * (r + way ms).
(* every two points of the two lists are at least d apart *)
Definition separated (d : R) (l1 l2 : list pt) : Prop := forall p q, In p l1 -> In q l2 -> d <= vnorm (vsub (pp q) (pp p)).

(* ---- one pair ---- *)
Lemma kernel (x h r r' e : R) : 0 < r -> r / 2 <= r' -> Rabs (r' - r) <= e -> Rabs h <= e -> Rabs x <= r ->
  Rabs ((x + h) / r' ^ 3 - x / r ^ 3) <= 22 * e / r ^ 3.
Proof.
  intros Hr Hr' He Hh Hx. assert (E0 : 0 <= e) by (assert (G := Rabs_pos h); lra). set (s := / r). set (s' := / r').
  assert (Ps : 0 < s) by now apply Rinv_0_lt_compat. assert (P' : 0 < s') by (apply Rinv_0_lt_compat; lra).
  assert (Rs : r * s = 1) by (unfold s; field; lra). assert (Rs' : r' * s' = 1) by (unfold s'; field; lra).
  assert (L : s' <= 2 * s).
  { apply (Rmult_le_reg_r (r * r')); [nra|]. replace (s' * (r * r')) with (r * (r' * s')) by ring. replace (2 * s * (r * r')) with (2 * r' * (r * s)) by ring. rewrite Rs, Rs'. lra. }
  replace ((x + h) / r' ^ 3 - x / r ^ 3) with (h * s' ^ 3 + x * ((r - r') * s * s') * (s' ^ 2 + s' * s + s ^ 2)).
  2:{ unfold s, s'. field. lra. }
  replace (22 * e / r ^ 3) with (e * (22 * s ^ 3)) by (unfold s; field; lra).
  assert (S2 : s' ^ 2 <= 4 * s ^ 2) by nra.
  assert (Q : 0 <= s' ^ 2 + s' * s + s ^ 2 <= 7 * s ^ 2) by nra.
  assert (S3 : 0 <= s' ^ 3 <= 8 * s ^ 3). { replace (s' ^ 3) with (s' * s' ^ 2) by ring. replace (8 * s ^ 3) with (2 * s * (4 * s ^ 2)) by ring. split; [apply Rmult_le_pos; [lra|apply pow2_ge_0]|]. apply Rmult_le_compat; [lra|apply pow2_ge_0|exact L|exact S2]. }
  eapply Rle_trans; [apply Rabs_triang|]. rewrite !Rabs_mult. rewrite (Rabs_right (s' ^ 3)), (Rabs_right s), (Rabs_right s'), (Rabs_right (_ + _)) by lra.
  assert (A1 : Rabs h * s' ^ 3 <= e * (8 * s ^ 3)) by (apply Rmult_le_compat; try lra; apply Rabs_pos).
  assert (A2 : Rabs x * (Rabs (r - r') * s * s') * (s' ^ 2 + s' * s + s ^ 2) <= e * (14 * s ^ 3)).
  { assert (B1 : Rabs x * (Rabs (r - r') * s * s') <= e * (2 * s)).
    { replace (e * (2 * s)) with (r * (e * s * (2 * s))) by (transitivity (r * s * (e * (2 * s))); [ring|rewrite Rs; ring]).
      assert (B0 : 0 <= Rabs (r - r')) by apply Rabs_pos. rewrite Rabs_minus_sym in He. apply Rmult_le_compat; [apply Rabs_pos|apply Rmult_le_pos; [apply Rmult_le_pos|]; lra|exact Hx|]. apply Rmult_le_compat; [apply Rmult_le_pos; lra|lra| |exact L]. apply Rmult_le_compat_r; lra. }
    replace (e * (14 * s ^ 3)) with (e * (2 * s) * (7 * s ^ 2)) by ring. apply Rmult_le_compat; [|lra|exact B1|lra]. apply Rmult_le_pos; [apply Rabs_pos|]. assert (B0 := Rabs_pos (r - r')). apply Rmult_le_pos; [apply Rmult_le_pos|]; lra. }
  lra.
Qed.

Lemma co_le i (v : vec) : Rabs (co i v) <= vnorm v.
Proof.
  apply Rsqr_incr_0_var; [|apply norm_ge0]. rewrite <- Rsqr_abs. unfold Rsqr. rewrite norm_sq. destruct v as [[x y] z]. unfold vdot. destruct i; cbn [co]; nra.
Qed.
Definition pull (p q : pt) : R := BIG_G * Rabs (pm p) * Rabs (pm q) / vnorm (vsub (pp q) (pp p)) ^ 2.
Lemma G_pos : 0 < BIG_G. Proof. unfold BIG_G. apply Rdiv_lt_0_compat; [lra|apply pow_lt; lra]. Qed.
Lemma pull_ge0 p q : 0 <= pull p q.
Proof.
  unfold pull, Rdiv. assert (G := G_pos). apply Rmult_le_pos; [apply Rmult_le_pos; [apply Rmult_le_pos; [lra|]|]; apply Rabs_pos|].
  destruct (Req_dec (vnorm (vsub (pp q) (pp p)) ^ 2) 0) as [->|N]; [rewrite Rinv_0; lra|]. assert (0 <= vnorm (vsub (pp q) (pp p)) ^ 2) by apply pow2_ge_0. apply Rlt_le, Rinv_0_lt_compat. lra.
Qed.
Lemma co_vscal i k v : co i (vscal k v) = k * co i v. Proof. destruct v as [[x y] z], i; reflexivity. Qed.
Lemma co_vsub i v w : co i (vsub v w) = co i v - co i w. Proof. destruct v as [[x y] z], w as [[x' y'] z'], i; reflexivity. Qed.
Lemma attraction_co i p q : co i (attraction p q) = BIG_G * pm p * pm q * (co i (vsub (pp q) (pp p)) / vnorm (vsub (pp q) (pp p)) ^ 3).
Proof. unfold attraction. cbv zeta. rewrite co_vscal. unfold Rdiv. ring. Qed.
Lemma attraction_le i p q d : 0 < d -> d <= vnorm (vsub (pp q) (pp p)) -> Rabs (co i (attraction p q)) <= pull p q.
Proof.
  intros Hd H. rewrite attraction_co. unfold pull. assert (C := co_le i (vsub (pp q) (pp p))). set (r := vnorm _) in *. set (x := co _ _) in *. clearbody r x.
  rewrite !Rabs_mult. assert (G := G_pos). rewrite (Rabs_right BIG_G) by lra. unfold Rdiv at 2. apply Rmult_le_compat_l; [apply Rmult_le_pos; [apply Rmult_le_pos; [lra|]|]; apply Rabs_pos|].
  assert (P3 : 0 < r ^ 3) by (apply pow_lt; lra). unfold Rdiv. rewrite Rabs_mult, (Rabs_right (/ r ^ 3)) by (apply Rle_ge, Rlt_le, Rinv_0_lt_compat; exact P3).
  replace (/ r ^ 2) with (r * / r ^ 3) by (field; lra). apply Rmult_le_compat_r; [apply Rlt_le, Rinv_0_lt_compat; exact P3|exact C].
Qed.
Lemma sep_moved p q p' q' e1 e2 : vnorm (vsub (pp p') (pp p)) <= e1 -> vnorm (vsub (pp q') (pp q)) <= e2 ->
  vnorm (vsub (vsub (pp q') (pp p')) (vsub (pp q) (pp p))) <= e1 + e2.
Proof.
  intros H1 H2. replace (vsub (vsub (pp q') (pp p')) (vsub (pp q) (pp p))) with (vadd (vsub (pp q') (pp q)) (vsub (pp p) (pp p'))).
  - apply Rle_trans with (1 := vnorm_triangle _ _). replace (vnorm (vsub (pp p) (pp p'))) with (vnorm (vsub (pp p') (pp p))); [lra|].
    destruct (pp p) as [[? ?] ?], (pp p') as [[? ?] ?]. unfold vsub, vnorm. f_equal. ring.
  - destruct (pp p) as [[? ?] ?], (pp p') as [[? ?] ?], (pp q) as [[? ?] ?], (pp q') as [[? ?] ?]. unfold vsub, vadd. apply f_equal2; [apply f_equal2|]; ring.
Qed.
Lemma norm_diff (a b : vec) : Rabs (vnorm a - vnorm b) <= vnorm (vsub a b).
Proof.
  assert (T := norm_sub_bound a b). assert (T' := norm_sub_bound b a). assert (E : vnorm (vsub b a) = vnorm (vsub a b)) by (destruct a as [[? ?] ?], b as [[? ?] ?]; unfold vsub, vnorm; f_equal; ring).
  apply Rabs_le. lra.
Qed.
Lemma attraction_moved i p q p' q' d e1 e2 : 0 < d -> d <= vnorm (vsub (pp q) (pp p)) -> pm p' = pm p -> pm q' = pm q ->
  vnorm (vsub (pp p') (pp p)) <= e1 -> vnorm (vsub (pp q') (pp q)) <= e2 -> e1 + e2 <= d / 2 ->
  Rabs (co i (attraction p' q') - co i (attraction p q)) <= 22 * (e1 + e2) / d * pull p q.
Proof.
  intros Hd H M1 M2 H1 H2 He. rewrite !attraction_co, M1, M2. assert (S := sep_moved p q p' q' e1 e2 H1 H2).
  unfold pull. set (v := vsub (pp q) (pp p)) in *. set (w := vsub (pp q') (pp p')) in *. clearbody v w.
  assert (D := norm_diff w v). assert (X := co_le i v). assert (Y := co_le i (vsub w v)). rewrite co_vsub in Y.
  set (r := vnorm v) in *. set (r' := vnorm w) in *. set (x := co i v) in *.
  assert (K := kernel x (co i w - x) r r' (e1 + e2)). replace (x + (co i w - x)) with (co i w) in K by ring.
  assert (B := Rabs_le_between (r' - r) (e1 + e2)). destruct (proj1 B) as [B1 B2]; [lra|].
  specialize (K ltac:(lra) ltac:(lra) ltac:(lra) ltac:(lra) X).
  replace (BIG_G * pm p * pm q * (co i w / r' ^ 3) - BIG_G * pm p * pm q * (x / r ^ 3)) with (BIG_G * pm p * pm q * (co i w / r' ^ 3 - x / r ^ 3)) by ring.
  assert (G := G_pos). rewrite !Rabs_mult, (Rabs_right BIG_G) by lra.
  assert (Gm : 0 <= BIG_G * Rabs (pm p) * Rabs (pm q)) by (apply Rmult_le_pos; [apply Rmult_le_pos; [lra|]|]; apply Rabs_pos).
  replace (22 * (e1 + e2) / d * (BIG_G * Rabs (pm p) * Rabs (pm q) / r ^ 2)) with (BIG_G * Rabs (pm p) * Rabs (pm q) * (22 * (e1 + e2) / d / r ^ 2)) by (field; lra).
  apply Rmult_le_compat_l; [exact Gm|]. apply Rle_trans with (1 := K).
  assert (E0 : 0 <= e1 + e2) by (assert (Z := norm_ge0 (vsub w v)); lra).
  replace (22 * (e1 + e2) / r ^ 3) with (22 * (e1 + e2) * / r ^ 2 * / r) by (field; lra). replace (22 * (e1 + e2) / d / r ^ 2) with (22 * (e1 + e2) * / r ^ 2 * / d) by (field; lra).
  apply Rmult_le_compat_l; [|apply Rinv_le_contravar; lra]. apply Rmult_le_pos; [lra|]. apply Rlt_le, Rinv_0_lt_compat, pow_lt. lra.
Qed.
(* ---- sums over matching lists ---- *)
Lemma Forall2_lsr {X} (P : X -> X -> Prop) (f g h : X -> R) k l m : Forall2 P l m -> (forall x y, In x l -> P x y -> Rabs (g y - f x) <= k * h x) -> Rabs (lsr g m - lsr f l) <= k * lsr h l.
Proof.
  induction 1 as [|x y l m Hxy _ IH]; intros H; unfold lsr in *; cbn [fold_right].
  - rewrite Rminus_0_r, Rabs_R0. lra.
  - replace (g y + fold_right (fun x acc => g x + acc) 0 m - (f x + fold_right (fun x acc => f x + acc) 0 l)) with ((g y - f x) + (fold_right (fun x acc => g x + acc) 0 m - fold_right (fun x acc => f x + acc) 0 l)) by ring.
    apply Rle_trans with (1 := Rabs_triang _ _). rewrite Rmult_plus_distr_l. apply Rplus_le_compat; [apply H; [now left|exact Hxy]|]. apply IH. intros a b Ha. apply H. now right.
Qed.
Lemma Forall2_lsr_le {X} (P : X -> X -> Prop) (g h : X -> R) k l m : Forall2 P l m -> (forall x y, In x l -> P x y -> g y <= k * h x) -> lsr g m <= k * lsr h l.
Proof.
  induction 1 as [|x y l m Hxy _ IH]; intros H; unfold lsr in *; cbn [fold_right]; [lra|].
  rewrite Rmult_plus_distr_l. apply Rplus_le_compat; [apply H; [now left|exact Hxy]|]. apply IH. intros a b Ha. apply H. now right.
Qed.
Lemma lsr_sub {X} (f g : X -> R) l : lsr (fun x => f x - g x) l = lsr f l - lsr g l.
Proof. unfold lsr. induction l; cbn [fold_right]; lra. Qed.
Lemma sumT_term i p l : sumT i p l = lsr (fun q => co (next i) (pp p) * co (next (next i)) (attraction p q) - co (next (next i)) (pp p) * co (next i) (attraction p q)) l.
Proof. rewrite lsr_sub, !Newton.lsr_scal. reflexivity. Qed.

Definition nearby (R1 e : R) (p p' : pt) : Prop := pm p' = pm p /\ vnorm (pp p) <= R1 /\ vnorm (vsub (pp p') (pp p)) <= e.
Section Pairs.
Context (d e1 e2 R1 R2 : R) (l1 l2 m1 m2 : list pt).
Hypothesis Hd : 0 < d.
Hypothesis Hs : separated d l1 l2.
Hypothesis N1 : Forall2 (nearby R1 e1) l1 m1.
Hypothesis N2 : Forall2 (nearby R2 e2) l2 m2.
Hypothesis He : e1 + e2 <= d / 2.
Hypothesis P1 : 0 <= R1.
Hypothesis E1 : 0 <= e1.
Hypothesis E2 : 0 <= e2.
Let kap := 22 * (e1 + e2) / d.
Lemma kap_ge0 : 0 <= kap. Proof. unfold kap, Rdiv. apply Rmult_le_pos; [lra|]. apply Rlt_le, Rinv_0_lt_compat. lra. Qed.
Lemma pull_total : total_pull l1 l2 = lsr (fun p => lsr (fun q => pull p q) l2) l1. Proof. reflexivity. Qed.
Lemma force_moved i : Rabs (lsr (fun p => sumF i p m2) m1 - lsr (fun p => sumF i p l2) l1) <= kap * total_pull l1 l2.
Proof.
  rewrite pull_total. apply (Forall2_lsr (nearby R1 e1)); [exact N1|]. intros p p' Hp (Mp & _ & Dp).
  apply (Forall2_lsr (nearby R2 e2)); [exact N2|]. intros q q' Hq (Mq & _ & Dq). apply attraction_moved; auto.
Qed.
Lemma attraction_moved_le i p p' q q' : In p l1 -> In q l2 -> nearby R1 e1 p p' -> nearby R2 e2 q q' -> Rabs (co i (attraction p' q')) <= (1 + kap) * pull p q.
Proof.
  intros Hp Hq (Mp & _ & Dp) (Mq & _ & Dq). assert (A := attraction_moved i p q p' q' d e1 e2 Hd (Hs p q Hp Hq) Mp Mq Dp Dq He). assert (B := attraction_le i p q d Hd (Hs p q Hp Hq)).
  assert (T := Rabs_triang (co i (attraction p' q') - co i (attraction p q)) (co i (attraction p q))). replace (co i (attraction p' q') - co i (attraction p q) + co i (attraction p q)) with (co i (attraction p' q')) in T by ring. fold kap in A. lra.
Qed.
Lemma force_size_moved i : force_size i m1 m2 <= (1 + kap) * total_pull l1 l2.
Proof.
  rewrite pull_total. apply (Forall2_lsr_le (nearby R1 e1)); [exact N1|]. intros p p' Hp Np. apply (Forall2_lsr_le (nearby R2 e2)); [exact N2|]. intros q q' Hq Nq. now apply attraction_moved_le.
Qed.
Lemma place p p' i : nearby R1 e1 p p' -> Rabs (co i (pp p')) <= R1 + e1 /\ Rabs (co i (pp p)) <= R1 /\ Rabs (co i (pp p') - co i (pp p)) <= e1.
Proof.
  intros (_ & A & B). assert (X := co_le i (pp p')). assert (Y := co_le i (pp p)). assert (Z := co_le i (vsub (pp p') (pp p))). rewrite co_vsub in Z. assert (W := norm_sub_bound (pp p') (pp p)). lra.
Qed.
Lemma torque_size_moved i : torque_size i m1 m2 <= 2 * ((R1 + e1) * (1 + kap)) * total_pull l1 l2.
Proof.
  rewrite pull_total. apply (Forall2_lsr_le (nearby R1 e1)); [exact N1|]. intros p p' Hp Np. apply (Forall2_lsr_le (nearby R2 e2)); [exact N2|]. intros q q' Hq Nq.
  assert (G : forall j k, Rabs (co j (pp p') * co k (attraction p' q')) <= (R1 + e1) * (1 + kap) * pull p q).
  { intros j k. rewrite Rabs_mult, Rmult_assoc. apply Rmult_le_compat; try apply Rabs_pos; [now apply (place p p' j)|now apply attraction_moved_le]. }
  assert (G1 := G (next i) (next (next i))). assert (G2 := G (next (next i)) (next i)). lra.
Qed.
Lemma torque_moved i : Rabs (lsr (fun p => sumT i p m2) m1 - lsr (fun p => sumT i p l2) l1) <= 2 * ((R1 + e1) * (1 + kap) - R1) * total_pull l1 l2.
Proof.
  rewrite pull_total. apply (Forall2_lsr (nearby R1 e1)); [exact N1|]. intros p p' Hp Np. rewrite !sumT_term.
  apply (Forall2_lsr (nearby R2 e2)); [exact N2|]. intros q q' Hq Nq.
  assert (G : forall j k, Rabs (co j (pp p') * co k (attraction p' q') - co j (pp p) * co k (attraction p q)) <= ((R1 + e1) * (1 + kap) - R1) * pull p q).
  { intros j k. destruct (place p p' j Np) as (X1 & X2 & X3). assert (Y1 := attraction_moved_le k p p' q q' Hp Hq Np Nq).
    assert (Y2 : Rabs (co k (attraction p' q') - co k (attraction p q)) <= kap * pull p q) by (destruct Np as (Mp & _ & Dp), Nq as (Mq & _ & Dq); apply attraction_moved; auto).
    replace (co j (pp p') * co k (attraction p' q') - co j (pp p) * co k (attraction p q)) with ((co j (pp p') - co j (pp p)) * co k (attraction p' q') + co j (pp p) * (co k (attraction p' q') - co k (attraction p q))) by ring.
    apply Rle_trans with (1 := Rabs_triang _ _). rewrite !Rabs_mult.
    assert (Z1 : Rabs (co j (pp p') - co j (pp p)) * Rabs (co k (attraction p' q')) <= e1 * ((1 + kap) * pull p q)) by (apply Rmult_le_compat; try apply Rabs_pos; assumption).
    assert (Z2 : Rabs (co j (pp p)) * Rabs (co k (attraction p' q') - co k (attraction p q)) <= R1 * (kap * pull p q)) by (apply Rmult_le_compat; try apply Rabs_pos; assumption).
    apply Rle_trans with (1 := Rplus_le_compat _ _ _ _ Z1 Z2). apply Req_le. ring. }
  assert (G1 := G (next i) (next (next i))). assert (G2 := G (next (next i)) (next i)).
  replace (co (next i) (pp p') * co (next (next i)) (attraction p' q') - co (next (next i)) (pp p') * co (next i) (attraction p' q') - (co (next i) (pp p) * co (next (next i)) (attraction p q) - co (next (next i)) (pp p) * co (next i) (attraction p q)))
    with ((co (next i) (pp p') * co (next (next i)) (attraction p' q') - co (next i) (pp p) * co (next (next i)) (attraction p q)) - (co (next (next i)) (pp p') * co (next i) (attraction p' q') - co (next (next i)) (pp p) * co (next i) (attraction p q))) by ring.
  apply Rle_trans with (1 := Rabs_triang _ _). rewrite Rabs_Ropp. lra.
Qed.
Lemma still_apart : apart_all m1 m2.
Proof.
  assert (G : forall (P : pt -> pt -> Prop) l m y, Forall2 P l m -> In y m -> exists x, In x l /\ P x y).
  { intros P l m y H. induction H as [|x z l m Hxz _ IH]; intros [].
    - subst. exists x. split; [now left|exact Hxz].
    - destruct (IH H) as (w & Hw & Pw). exists w. split; [now right|exact Pw]. }
  intros p' q' Hp Hq. destruct (G _ _ _ _ N1 Hp) as (p & Ip & _ & _ & Dp). destruct (G _ _ _ _ N2 Hq) as (q & Iq & _ & _ & Dq).
  apply apart_norm. assert (S := sep_moved p q p' q' e1 e2 Dp Dq). assert (D := norm_diff (vsub (pp q') (pp p')) (vsub (pp q) (pp p))). assert (X := Hs p q Ip Iq).
  assert (B := Rabs_le_between (vnorm (vsub (pp q') (pp p')) - vnorm (vsub (pp q) (pp p))) (e1 + e2)). destruct (proj1 B) as [B1 B2]; [lra|]. apply Rgt_not_eq. lra.
Qed.
End Pairs.

(* ==== C76 ==== *)
Lemma after_ge0 u k : 0 <= u <= 1 / 4 -> 0 <= after u k.
Proof.
  intros H. unfold after. assert (P : 0 < (1 - u) ^ k) by (apply pow_lt; lra). assert (Q : (1 - u) ^ k <= 1) by (apply Rle_trans with (1 ^ k); [apply pow_incr; split; lra|rewrite pow1; lra]).
  assert (/ 1 <= / (1 - u) ^ k) by (apply Rinv_le_contravar; assumption). rewrite Rinv_1 in H0. lra.
Qed.
Lemma way_ge0 ms : 0 <= way ms.
Proof. induction ms as [|[t|theta v] ms IH]; cbn [way]; [lra| |exact IH]. assert (N := norm_ge0 t). lra. Qed.
Lemma drift_ge0 u ms r : 0 <= u <= 1 / 4 -> 0 <= r -> 0 <= drift u ms r.
Proof.
  intros Hu Hr. unfold drift. assert (W := way_ge0 ms). assert (E := after_ge0 u 26 Hu). assert (P : 1 <= (1 + move_error u) ^ length ms) by (apply pow_R1_Rle; unfold move_error; lra).
  apply Rmult_le_pos; lra.
Qed.
Lemma history_nearby A u fsin ms a b c r : accurate u A -> accurate_sin u fsin -> (forall p, In p (rows a) -> vnorm (pp p) <= r) -> fl_moves A fsin ms a b -> exact_moves ms a = Ok c ->
  Forall2 (nearby (r + way ms) (drift u ms r)) (rows c) (rows b).
Proof.
  intros HA HS Hr H E. destruct (C75_history A u fsin ms a b r HA HS Hr H) as (c' & E' & F). rewrite E in E'. injection E' as <-.
  apply (Forall2_weaken _ _ _ _ F). intros p q (M & B & D). repeat split; assumption.
Qed.
Lemma fl_array_length g a b : fl_array g a b -> length (rows b) = length (rows a).
Proof. destruct a as [p|l], b as [q|m]; cbn [fl_array rows]; try contradiction; [reflexivity|]. intros H. induction H; cbn [length]; congruence. Qed.
Lemma fl_moves_length A fsin ms a b : fl_moves A fsin ms a b -> length (rows b) = length (rows a).
Proof.
  induction 1 as [a|t ms a b c H1 _ IH|theta v ms a b c (M & _ & H1) _ IH]; [reflexivity| |]; rewrite IH; now apply fl_array_length in H1.
Qed.
Lemma perturbed_gravity A u a b f t c1 c2 (e1 e2 R1 R2 d : R) : accurate u A -> 0 <= R1 -> 0 <= e1 -> 0 <= e2 ->
  Forall2 (nearby R1 e1) (rows c1) (rows a) -> Forall2 (nearby R2 e2) (rows c2) (rows b) -> fl_point_matrix_gravity A a b f t ->
  0 < d -> separated d (rows c1) (rows c2) -> e1 + e2 <= d / 2 ->
  exists F T, point_matrix_gravity c1 c2 = Ok (F, T) /\ let kap := 22 * (e1 + e2) / d in forall i,
    Rabs (co i f - co i F) <= ((1 + after u (26 + length (rows a) + length (rows b))) * (1 + kap) - 1) * total_pull (rows c1) (rows c2) /\
    Rabs (co i t - co i T) <= 2 * ((1 + after u (28 + length (rows a) + length (rows b))) * (1 + kap) * (R1 + e1) - R1) * total_pull (rows c1) (rows c2).
Proof.
  intros HA P1 E1 E2 N1 N2 Hg Hd Hsep Hdr. assert (Hu := proj1 HA).
  assert (Ap : apart_all (rows c1) (rows c2)). { intros p q Hp Hq. apply apart_norm. apply Rgt_not_eq. apply Rlt_le_trans with d; [lra|now apply Hsep]. }
  destruct (exact_gravity c1 c2 Ap) as (F & T & EF & CF & CT). destruct (exact_gravity a b (still_apart d _ _ _ _ _ _ _ _ Hd Hsep N1 N2 Hdr)) as (F' & T' & EF' & CF' & CT').
  destruct (C64_rounding A u a b f t HA Hg) as (F2 & T2 & E' & B). rewrite EF' in E'. injection E' as <- <-.
  exists F, T. split; [exact EF|]. intros kap i. destruct (B i) as [B1 B2]. clear B.
  assert (Fm := force_moved d _ _ _ _ _ _ _ _ Hd Hsep N1 N2 Hdr i). assert (Fs := force_size_moved d _ _ _ _ _ _ _ _ Hd Hsep N1 N2 Hdr i).
  assert (Tm := torque_moved d _ _ _ _ _ _ _ _ Hd Hsep N1 N2 Hdr i). assert (Ts := torque_size_moved d _ _ _ _ _ _ _ _ Hd Hsep N1 N2 Hdr i).
  fold kap in Fm, Fs, Tm, Ts. rewrite <- CF, <- CF' in Fm. rewrite <- CT, <- CT' in Tm.
  assert (A1 := after_ge0 u (26 + length (rows a) + length (rows b)) Hu). assert (A2 := after_ge0 u (28 + length (rows a) + length (rows b)) Hu).
  set (g1 := after u (26 + _ + _)) in *. set (g2 := after u (28 + _ + _)) in *. set (S := total_pull _ _) in *. clearbody g1 g2 S. split.
  - assert (Q : g1 * force_size i (rows a) (rows b) <= g1 * ((1 + kap) * S)) by now apply Rmult_le_compat_l.
    assert (Tr := Rabs_triang (co i f - co i F') (co i F' - co i F)). replace (co i f - co i F' + (co i F' - co i F)) with (co i f - co i F) in Tr by ring.
    apply Rle_trans with (1 := Tr). apply Rle_trans with (g1 * ((1 + kap) * S) + kap * S); [lra|]. apply Req_le. ring.
  - assert (Q : g2 * torque_size i (rows a) (rows b) <= g2 * (2 * ((R1 + e1) * (1 + kap)) * S)) by now apply Rmult_le_compat_l.
    assert (Tr := Rabs_triang (co i t - co i T') (co i T' - co i T)). replace (co i t - co i T' + (co i T' - co i T)) with (co i t - co i T) in Tr by ring.
    apply Rle_trans with (1 := Tr). apply Rle_trans with (g2 * (2 * ((R1 + e1) * (1 + kap)) * S) + 2 * ((R1 + e1) * (1 + kap) - R1) * S); [lra|]. apply Req_le. ring.
Qed.
Theorem C76_moved_gravity : forall A u fsin ms1 ms2 a b a' b' c1 c2 f t (r1 r2 d : R),
  accurate u A -> accurate_sin u fsin ->
  0 <= r1 -> (forall p, In p (rows a) -> vnorm (pp p) <= r1) -> 0 <= r2 -> (forall q, In q (rows b) -> vnorm (pp q) <= r2) ->
  (* the rounded computation *)
  fl_moves A fsin ms1 a a' -> fl_moves A fsin ms2 b b' -> fl_point_matrix_gravity A a' b' f t ->
  (* the exact positions, no two points closer than d *)
  exact_moves ms1 a = Ok c1 -> exact_moves ms2 b = Ok c2 -> 0 < d -> separated d (rows c1) (rows c2) ->
  drift u ms1 r1 + drift u ms2 r2 <= d / 2 ->
  exists F T, point_matrix_gravity c1 c2 = Ok (F, T) /\
    let kap := 22 * (drift u ms1 r1 + drift u ms2 r2) / d in forall i,
    Rabs (co i f - co i F) <= ((1 + after u (26 + length (rows a) + length (rows b))) * (1 + kap) - 1) * total_pull (rows c1) (rows c2) /\
    Rabs (co i t - co i T) <= 2 * ((1 + after u (28 + length (rows a) + length (rows b))) * (1 + kap) * (r1 + way ms1 + drift u ms1 r1) - (r1 + way ms1)) * total_pull (rows c1) (rows c2).
Proof.
  intros A u fsin ms1 ms2 a b a' b' c1 c2 f t r1 r2 d HA HS Pr1 Hr1 Pr2 Hr2 H1 H2 Hg X1 X2 Hd Hsep Hdr. assert (Hu := proj1 HA).
  assert (N1 := history_nearby A u fsin ms1 a a' c1 r1 HA HS Hr1 H1 X1). assert (N2 := history_nearby A u fsin ms2 b b' c2 r2 HA HS Hr2 H2 X2).
  assert (E1 := drift_ge0 u ms1 r1 Hu Pr1). assert (E2 := drift_ge0 u ms2 r2 Hu Pr2). assert (W1 := way_ge0 ms1).
  rewrite <- (fl_moves_length A fsin ms1 a a' H1), <- (fl_moves_length A fsin ms2 b b' H2).
  apply (perturbed_gravity A u a' b' f t c1 c2 _ _ (r1 + way ms1) (r2 + way ms2)); auto. lra.
Qed.
(* the rounded computation does end with numbers *)
Theorem C76_results_exist : forall A u fsin ms1 ms2 a b c1 c2 (r1 r2 d : R), accurate u A -> accurate_sin u fsin ->
  (forall theta n, In (MTurn theta n) ms1 \/ In (MTurn theta n) ms2 -> n <> v0) -> (forall p, In p (rows a) -> vnorm (pp p) <= r1) -> (forall q, In q (rows b) -> vnorm (pp q) <= r2) ->
  exact_moves ms1 a = Ok c1 -> exact_moves ms2 b = Ok c2 -> 0 < d -> separated d (rows c1) (rows c2) -> drift u ms1 r1 + drift u ms2 r2 <= d / 2 ->
  exists a' b' f t, fl_moves A fsin ms1 a a' /\ fl_moves A fsin ms2 b b' /\ fl_point_matrix_gravity A a' b' f t.
Proof.
  intros A u fsin ms1 ms2 a b c1 c2 r1 r2 d HA HS Ax Hr1 Hr2 X1 X2 Hd Hsep Hdr.
  destruct (C75_results_exist A u fsin ms1 a HA (fun theta n Hi => Ax theta n (or_introl Hi))) as (a' & Ha). destruct (C75_results_exist A u fsin ms2 b HA (fun theta n Hi => Ax theta n (or_intror Hi))) as (b' & Hb).
  assert (N1 := history_nearby A u fsin ms1 a a' c1 r1 HA HS Hr1 Ha X1). assert (N2 := history_nearby A u fsin ms2 b b' c2 r2 HA HS Hr2 Hb X2).
  destruct (C64_results_exist A u a' b' HA (still_apart d _ _ _ _ _ _ _ _ Hd Hsep N1 N2 Hdr)) as (f & t & Hg). now exists a', b', f, t.
Qed.
Lemma after64 k : (k <= 1000 * 1000 + 28)%nat -> after (/ 2 ^ 53) k <= INR k / 2 ^ 52.
Proof.
  intros Hk. destruct (C64_size (/ 2 ^ 53) k) as [_ G].
  - destruct C64_binary64_is_accurate as [G _]. exact G.
  - apply (Rmult_le_reg_r (2 ^ 53)); [apply pow_lt; lra|]. rewrite Rmult_assoc, Rinv_l, Rmult_1_r by (apply pow_nonzero; lra). apply Rle_trans with (2 ^ 21).
    + rewrite INR_IZR_INZ, pow_IZR. apply IZR_le. change (Z.of_nat 2)%Z with 2%Z. lia.
    + replace (1 / 2 * 2 ^ 53) with (2 ^ 52) by (cbn [pow]; lra). apply Rle_pow; [lra|lia].
  - replace (INR k / 2 ^ 52) with (2 * INR k * / 2 ^ 53) by (replace (2 ^ 53) with (2 * 2 ^ 52) by (cbn [pow]; lra); field; apply pow_nonzero; lra). exact G.
Qed.
(* double precision, up to a thousand million moves of each array and a million points *)
Theorem C76_binary64 : forall ms1 ms2 a b a' b' c1 c2 f t (r1 r2 d : R),
  (length ms1 <= 1000 * 1000 * 1000)%nat -> (length ms2 <= 1000 * 1000 * 1000)%nat -> (length (rows a) + length (rows b) <= 1000 * 1000)%nat ->
  0 <= r1 -> (forall p, In p (rows a) -> vnorm (pp p) <= r1) -> 0 <= r2 -> (forall q, In q (rows b) -> vnorm (pp q) <= r2) ->
  fl_moves binary64 (fun x => rnd binary64 (sin x)) ms1 a a' -> fl_moves binary64 (fun x => rnd binary64 (sin x)) ms2 b b' -> fl_point_matrix_gravity binary64 a' b' f t ->
  exact_moves ms1 a = Ok c1 -> exact_moves ms2 b = Ok c2 -> 0 < d -> separated d (rows c1) (rows c2) ->
  let e := (INR (length ms1) * (r1 + way ms1) + INR (length ms2) * (r2 + way ms2)) * (364 / 2 ^ 52) in e <= d / 2 ->
  exists F T, point_matrix_gravity c1 c2 = Ok (F, T) /\ forall i,
    Rabs (co i f - co i F) <= ((1 + INR (26 + length (rows a) + length (rows b)) / 2 ^ 52) * (1 + 22 * e / d) - 1) * total_pull (rows c1) (rows c2) /\
    Rabs (co i t - co i T) <= 2 * (r1 + way ms1) * ((1 + INR (28 + length (rows a) + length (rows b)) / 2 ^ 52) * (1 + 22 * e / d) * (1 + INR (length ms1) * (364 / 2 ^ 52)) - 1) * total_pull (rows c1) (rows c2).
Proof.
  intros ms1 ms2 a b a' b' c1 c2 f t r1 r2 d L1 L2 Ln Pr1 Hr1 Pr2 Hr2 H1 H2 Hg X1 X2 Hd Hsep e He.
  assert (HA := C64_binary64_is_accurate). assert (HS := sin64). assert (Hu := proj1 HA).
  assert (N1 := history_nearby _ _ _ ms1 a a' c1 r1 HA HS Hr1 H1 X1). assert (N2 := history_nearby _ _ _ ms2 b b' c2 r2 HA HS Hr2 H2 X2).
  assert (W1 := way_ge0 ms1). assert (W2 := way_ge0 ms2). assert (I1 := pos_INR (length ms1)). assert (I2 := pos_INR (length ms2)).
  assert (P : 0 < 364 / 2 ^ 52) by (apply Rdiv_lt_0_compat; [lra|apply pow_lt; lra]).
  assert (Wk : forall ms r, (length ms <= 1000 * 1000 * 1000)%nat -> 0 <= r -> drift (/ 2 ^ 53) ms r <= INR (length ms) * (r + way ms) * (364 / 2 ^ 52)).
  { intros ms r Hl Hr. unfold drift. assert (G := growth64 _ Hl). assert (W := way_ge0 ms). replace (INR (length ms) * (r + way ms) * (364 / 2 ^ 52)) with (INR (length ms) * (364 / 2 ^ 52) * (r + way ms)) by ring. apply Rmult_le_compat_r; [lra|exact G]. }
  assert (D1 := Wk ms1 r1 L1 Pr1). assert (D2 := Wk ms2 r2 L2 Pr2).
  assert (Nw : forall R0 x y l m, x <= y -> Forall2 (nearby R0 x) l m -> Forall2 (nearby R0 y) l m).
  { intros R0 x y l m Hxy F. apply (Forall2_weaken _ _ _ _ F). intros p q (M & B & D). split; [exact M|]. split; [exact B|lra]. }
  assert (E1 : 0 <= INR (length ms1) * (r1 + way ms1) * (364 / 2 ^ 52)) by (apply Rmult_le_pos; [apply Rmult_le_pos|]; lra).
  assert (E2 : 0 <= INR (length ms2) * (r2 + way ms2) * (364 / 2 ^ 52)) by (apply Rmult_le_pos; [apply Rmult_le_pos|]; lra).
  assert (Ee : e = INR (length ms1) * (r1 + way ms1) * (364 / 2 ^ 52) + INR (length ms2) * (r2 + way ms2) * (364 / 2 ^ 52)) by (unfold e; ring).
  destruct (perturbed_gravity _ _ a' b' f t c1 c2 _ _ (r1 + way ms1) (r2 + way ms2) d HA ltac:(lra) E1 E2 (Nw _ _ _ _ _ D1 N1) (Nw _ _ _ _ _ D2 N2) Hg Hd Hsep ltac:(lra)) as (F & T & E & B).
  exists F, T. split; [exact E|]. intros i. destruct (B i) as [B1 B2]. rewrite <- Ee in B1, B2. rewrite (fl_moves_length _ _ ms1 a a' H1), (fl_moves_length _ _ ms2 b b' H2) in B1, B2.
  assert (K : 0 <= 22 * e / d) by (unfold Rdiv; apply Rmult_le_pos; [lra|apply Rlt_le, Rinv_0_lt_compat; lra]).
  assert (Sp : 0 <= total_pull (rows c1) (rows c2)) by (apply lsr_ge0; intros p; apply lsr_ge0; intros q; apply (pull_ge0 p q)).
  split; [apply Rle_trans with (1 := B1)|apply Rle_trans with (1 := B2)]; (apply Rmult_le_compat_r; [exact Sp|]).
  - apply Rplus_le_compat_r, Rmult_le_compat_r; [lra|]. apply Rplus_le_compat_l. apply after64. lia.
  - assert (G := after64 (28 + length (rows a) + length (rows b)) ltac:(lia)). set (g := after _ _) in *. set (g' := INR _ / _) in *.
    replace (r1 + way ms1 + INR (length ms1) * (r1 + way ms1) * (364 / 2 ^ 52)) with ((r1 + way ms1) * (1 + INR (length ms1) * (364 / 2 ^ 52))) by ring.
    set (k := INR (length ms1) * (364 / 2 ^ 52)). assert (K1 : 0 <= k) by (apply Rmult_le_pos; lra).
    replace (2 * (r1 + way ms1) * ((1 + g') * (1 + 22 * e / d) * (1 + k) - 1)) with (2 * ((1 + g') * (1 + 22 * e / d) * ((r1 + way ms1) * (1 + k)) - (r1 + way ms1))) by ring.
    apply Rmult_le_compat_l; [lra|]. apply Rplus_le_compat_r. apply Rmult_le_compat_r; [apply Rmult_le_pos; lra|]. apply Rmult_le_compat_r; lra.
Qed.
(* the hypotheses are met: a quarter turn, then a shift, of a two-point array, in double precision *)
Example C76_case : exists a' b' f t, let a := Rows (mkpt 1 (0, 1, 0) :: mkpt 2 (1, 0, 0) :: nil) in let b := Rows (mkpt 3 (0, 5, 0) :: nil) in
  fl_moves binary64 (fun x => rnd binary64 (sin x)) (MShift (0, 0, 3) :: MTurn (2 * PI) (0, 0, 1) :: nil) a a' /\ fl_moves binary64 (fun x => rnd binary64 (sin x)) nil b b' /\
  fl_point_matrix_gravity binary64 a' b' f t /\ exact_moves (MShift (0, 0, 3) :: MTurn (2 * PI) (0, 0, 1) :: nil) a = Ok (translate_point_array a (0, 0, 3)) /\ separated 3 (rows (translate_point_array a (0, 0, 3))) (rows b) /\
  drift (/ 2 ^ 53) (MShift (0, 0, 3) :: MTurn (2 * PI) (0, 0, 1) :: nil) 1 + drift (/ 2 ^ 53) nil 5 <= 3 / 2.
Proof.
  set (ms := MShift (0, 0, 3) :: MTurn (2 * PI) (0, 0, 1) :: nil). set (a := Rows (mkpt 1 (0, 1, 0) :: mkpt 2 (1, 0, 0) :: nil)). set (b := Rows (mkpt 3 (0, 5, 0) :: nil)).
  assert (Nz : forall x y z w : R, 0 <= w -> w * w <= x * x + y * y + z * z -> w <= vnorm (x, y, z)).
  { intros x y z w Hw H. apply Rsqr_incr_0_var; [|apply norm_ge0]. unfold Rsqr. rewrite norm_sq. unfold vdot. lra. }
  assert (Nu : forall x y z w : R, 0 <= w -> x * x + y * y + z * z <= w * w -> vnorm (x, y, z) <= w).
  { intros x y z w Hw H. apply norm_le_sq; [exact Hw|]. unfold vdot. lra. }
  assert (A0 : (0, 0, 1) <> v0) by (unfold v0; intros Z; injection Z; lra).
  assert (X1 : exact_moves ms a = Ok (translate_point_array a (0, 0, 3))).
  { unfold ms. cbn [exact_moves exact_move bind]. rewrite (rotate_2PI _ _ A0). reflexivity. }
  assert (Sp : separated 3 (rows (translate_point_array a (0, 0, 3))) (rows b)).
  { intros p q [<-|[<-|[]]] [<-|[]]; cbn; apply Nz; lra. }
  assert (Dr : drift (/ 2 ^ 53) ms 1 + drift (/ 2 ^ 53) nil 5 <= 3 / 2).
  { unfold drift, ms. cbn [length way]. change ((1 + move_error (/ 2 ^ 53)) ^ 0) with 1. assert (G := growth64 2). assert (N3 := Nu 0 0 3 3 ltac:(lra) ltac:(lra)). assert (N0 := norm_ge0 (0, 0, 3)).
    replace (INR 2) with 2 in G by (cbn [INR]; ring). assert (G' := G ltac:(lia)). set (g := (1 + move_error (/ 2 ^ 53)) ^ 2 - 1) in *.
    assert (B : 2 * (364 / 2 ^ 52) <= 1 / 4). { apply (Rmult_le_reg_r (2 ^ 52)); [apply pow_lt; lra|]. replace (2 * (364 / 2 ^ 52) * 2 ^ 52) with 728 by (field; apply pow_nonzero; lra). cbn [pow]. lra. }
    assert (M : g * (1 + (vnorm (0, 0, 3) + 0)) <= 1 / 4 * 4) by (apply Rle_trans with (1 / 4 * (1 + (vnorm (0, 0, 3) + 0))); [apply Rmult_le_compat_r; lra|lra]). lra. }
  destruct (C76_results_exist binary64 (/ 2 ^ 53) (fun x => rnd binary64 (sin x)) ms nil a b (translate_point_array a (0, 0, 3)) b 1 5 3 C64_binary64_is_accurate sin64) as (a' & b' & f & t & H1 & H2 & H3); [..|now exists a', b', f, t].
  - intros theta n [[E|[E|[]]]|[]]; [discriminate|]. injection E as _ <-. exact A0.
  - intros p [<-|[<-|[]]]; cbn [pp]; apply Nu; lra.
  - intros p [<-|[]]; cbn [pp]; apply Nu; lra.
  - exact X1.
  - reflexivity.
  - lra.
  - exact Sp.
  - exact Dr.
Qed.
Print Assumptions C76_moved_gravity.
Print Assumptions C76_results_exist.
Print Assumptions C76_binary64.
