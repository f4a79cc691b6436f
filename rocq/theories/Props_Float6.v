(* C85: rounding errors of PG2Multi.qmoments. *)
From Coq Require Import Reals Lra Lia List ZArith Permutation.
From Coquelicot Require Import Coquelicot.
From Verif Require Import Glib GlibSpec GlibProofs MathSpec Solid SolidSpec MomentSpec Arr Pg2Multi Pg2MultiProofs Props_Moments LipInt FloatSpec FlGlib Props_Float FlMomSpec FlMom FlMoms Props_Float5.
From Verif Require Import Cplx.
Open Scope R_scope.

Section Rounding.
Context (A : arith) (u : R) (HA : accurate u A).
Let rel := Props_Float.rel u. Let close := Props_Float.close u.
Lemma close_fac j k x X B t : close k x X B -> fac u j t -> close (k + j) (x * t) X B.
Proof.
  intros [H1 H2] [F1 F2]. split; [exact H1|]. assert (L := hk_le1 A u HA j). assert (HP := hk_pos A u HA j). assert (Gk := ihk_ge1 A u HA k). rewrite pow_add, Rinv_mult. set (a := / (1 - u) ^ k) in *. set (b := / (1 - u) ^ j) in *.
  assert (T1 : Rabs (t - 1) <= b - 1). { apply Rabs_le. split; [|lra]. assert (E : (1 - u) ^ j * b = 1) by (unfold b; apply Rinv_r; lra). set (h := (1 - u) ^ j) in *. clearbody h b. assert (1 <= b) by nra. nra. }
  assert (PX := Rabs_pos X). assert (PD := Rabs_pos (x - X)). assert (PT := Rabs_pos (t - 1)). assert (HB : 0 <= B) by lra. replace (x * t - X) with ((x - X) * t + X * (t - 1)) by ring. apply Rle_trans with (1 := Rabs_triang _ _). rewrite !Rabs_mult, (Rabs_pos_eq t) by lra.
  assert (E1 : Rabs (x - X) * t <= (a - 1) * B * b) by (apply Rmult_le_compat; lra). assert (E2 : Rabs X * Rabs (t - 1) <= B * (b - 1)) by (apply Rmult_le_compat; lra). lra.
Qed.
Let target (s : Z -> Z -> C) (n m : Z) : C :=
  if (m <? 0)%Z then (RtoC (parity (Z.abs m)) * Cconj (s n (- m)%Z))%C else if (m =? 0)%Z then RtoC (fst (s n 0%Z)) else s n m.
Lemma reflected_near s n m : Cmod (fl_reflected A s n m - target s n m)%C <= 2 * after u 8 * Cmod (s n (Z.abs m)).
Proof.
  assert (Z0 := rnd_0 A u HA). set (w := s n (Z.abs m)). destruct (le_parts w) as [L1 L2]. assert (AP : 0 <= after u 8) by (unfold after; assert (G := ihk_ge1 A u HA 8); lra).
  assert (K : close 8 (fst (fl_reflected A s n m)) (fst (target s n m)) (Rabs (fst w)) /\ close 8 (snd (fl_reflected A s n m)) (snd (target s n m)) (Rabs (snd w))).
  { unfold fl_reflected, target. destruct (Z.ltb_spec m 0) as [N|N].
    - destruct (Z.eqb_spec m 0); [lia|]. destruct (Z.ltb_spec (- m) 0); [lia|]. unfold w. replace (Z.abs m) with (- m)%Z by lia. set (z := s n (- m)%Z). set (p := parity (- m)). assert (HP : Rabs p = 1) by (unfold p, parity; destruct (Z.even _); [apply Rabs_R1|rewrite Rabs_left; lra]).
      unfold fl_cadd, fl_cscale. cbn [fst snd RtoC Cconj Cmult]. rewrite !Rmult_0_r, !Z0, !Rplus_0_l, !Rminus_0_r. split.
      + replace (Rabs (fst z)) with (Rabs (p * fst z - 0 * - snd z)) by (rewrite Rmult_0_l, Rminus_0_r, Rabs_mult, HP; ring). apply (close_rel A u HA). apply (rel_mono A u HA 3); [lia|]. apply (rel_rnd A u HA 2), (rel_rnd A u HA 1). replace (p * fst z - 0 * - snd z) with (fst z * p) by ring. apply (rel_rnd0 A u HA).
      + replace (Rabs (snd z)) with (Rabs (p * - snd z + 0 * fst z)) by (replace (p * - snd z + 0 * fst z) with (- (p * snd z)) by ring; rewrite Rabs_Ropp, Rabs_mult, HP; ring). apply (close_rel A u HA). apply (rel_mono A u HA 3); [lia|]. apply (rel_rnd A u HA 2), (rel_rnd A u HA 1). replace (p * - snd z + 0 * fst z) with (- snd z * p) by ring. apply (rel_rnd0 A u HA).
    - destruct (Z.eqb_spec m 0) as [->|N0].
      + cbn [Z.opp Z.abs Z.ltb Z.compare] in *. change (parity 0) with 1. change (w) with (s n 0%Z). set (z := s n 0%Z) in *. unfold fl_chalf, fl_cadd, fl_cscale. cbn [fst snd RtoC Cconj].
        replace (0 / 2) with 0 by (unfold Rdiv; ring). rewrite !Z0, !Rmult_0_r, !Z0, !Rplus_0_r, !Rplus_0_l, !Rminus_0_r, !Rmult_1_r.
        assert (SC : exists t, rnd A (1 / rnd A 2) = 1 / 2 * t /\ fac u 2 t). { assert (RR : rel 2 (rnd A (1 / rnd A 2)) (1 / 2)); [|exact RR]. apply (rel_rnd A u HA). apply (rel_div A u HA 0 1); [lra|apply (rel_refl A u HA)|apply (rel_rnd0 A u HA)]. }
        destruct SC as (t & -> & Ft).
        assert (R2 : forall x, rel 2 (rnd A (rnd A x)) x) by (intros x; apply (rel_rnd A u HA 1), (rel_rnd0 A u HA)).
        assert (C0 : forall x, close 2 x x (Rabs x)) by (intros x; apply (close_mono A u HA 0); [lia|]; apply (close_rel A u HA), (rel_refl A u HA)).
        assert (H : forall a b, close 2 b a (Rabs a) -> forall x, close 2 x x (Rabs a) -> Rabs x = Rabs a -> close 8 (rnd A (rnd A (rnd A (x + b)) * (1 / 2 * t))) ((x + a) / 2) (Rabs a)).
        { intros a b Cb x Cx _. assert (D := close_plus u 2 _ _ _ _ _ _ Cx Cb). apply (close_rnd A u HA), (close_rnd A u HA) in D. apply (close_fac 2 4 _ _ _ t) in D; [|exact Ft]. apply (close_mult u _ _ _ _ (1 / 2)) in D. apply (close_rnd A u HA) in D. apply (close_mono A u HA 7 8); [lia|].
          replace (1 / 2 * (rnd A (rnd A (x + b)) * t)) with (rnd A (rnd A (x + b)) * (1 / 2 * t)) in D by ring. replace (1 / 2 * (x + a)) with ((x + a) / 2) in D by field. replace (Rabs (1 / 2) * (Rabs a + Rabs a)) with (Rabs a) in D by (rewrite (Rabs_pos_eq (1 / 2)) by lra; field). exact D. }
        split.
        * replace (fst z) with ((fst z + fst z) / 2) at 3 by field. apply H; [apply (close_rel A u HA), R2|apply C0|reflexivity].
        * assert (D := H (- snd z) (rnd A (rnd A (- snd z)))). rewrite Rabs_Ropp in D. replace ((snd z + - snd z) / 2) with 0 in D by field. replace 0 with ((snd z + - snd z) / 2) at 1 by field. replace (Rabs (snd z)) with (Rabs (- snd z)) by apply Rabs_Ropp. apply H; [apply (close_rel A u HA), R2|rewrite Rabs_Ropp; apply C0|now rewrite Rabs_Ropp].
      + unfold w. replace (Z.abs m) with m by lia. destruct (Z.ltb_spec (- m) 0); [|lia]. set (z := s n m). unfold fl_cadd, fl_cscale. cbn [fst snd RtoC Cconj]. rewrite Ropp_0, !Rmult_0_l, !Z0, Rminus_0_r, !Z0, !Rplus_0_r, !Z0, !Rplus_0_r.
        split; (apply (close_mono A u HA 1); [lia|]; apply (close_rel A u HA), (rel_rnd0 A u HA)). }
  destruct K as [[_ K1] [_ K2]]. change (/ (1 - u) ^ 8 - 1) with (after u 8) in K1, K2. apply Rle_trans with (1 := parts_le _). cbn [Cminus Cplus Copp fst snd]. 
  assert (Y1 : after u 8 * Rabs (fst w) <= after u 8 * Cmod w) by (now apply Rmult_le_compat_l). assert (Y2 : after u 8 * Rabs (snd w) <= after u 8 * Cmod w) by (now apply Rmult_le_compat_l).
  apply Rle_trans with (Rabs (fst (fl_reflected A s n m) - fst (target s n m)) + Rabs (snd (fl_reflected A s n m) - snd (target s n m))); [apply Req_le; reflexivity|]. lra.
Qed.
(* the same transformation of the exact moments *)
Lemma target_exact s (F : Z -> Z -> C) n m e : (forall k, F n (- k)%Z = (sgnC k * Cconj (F n k))%C) -> Cmod (s n (Z.abs m) - F n (Z.abs m))%C <= e -> Cmod (target s n m - F n m)%C <= e.
Proof.
  intros Sy He. unfold target. destruct (Z.ltb_spec m 0) as [N|N].
  - replace (Z.abs m) with (- m)%Z in * by lia. assert (I := Sy (- m)%Z). rewrite Z.opp_involutive in I. rewrite I. unfold sgnC, parity. set (z := s n (- m)%Z) in *. set (Q := F n (- m)%Z) in *. rewrite <- cmod_conj5 in He.
    destruct (Z.even (- m)).
    + replace (RtoC 1 * Cconj z - RtoC 1 * Cconj Q)%C with (Cconj (z - Q))%C by (apply injective_projections; cbn; ring). exact He.
    + replace (RtoC (-1) * Cconj z - RtoC (-1) * Cconj Q)%C with (- Cconj (z - Q))%C by (apply injective_projections; cbn; ring). now rewrite Cmod_opp.
  - destruct (Z.eqb_spec m 0) as [->|N0].
    + cbn [Z.abs] in He. assert (I := Sy 0%Z). cbn [Z.opp] in I. set (Q := F n 0%Z) in *. set (z := s n 0%Z) in *. change (sgnC 0) with (RtoC 1) in I. assert (IQ : snd Q = 0). { assert (E : snd Q = snd (RtoC 1 * Cconj Q)%C) by (f_equal; exact I). cbn in E. lra. }
      apply Rle_trans with (2 := He). replace (RtoC (fst z) - Q)%C with (RtoC (fst (z - Q)%C)) by (apply injective_projections; cbn; lra). rewrite Cmod_R. apply le_parts.
    + replace (Z.abs m) with m in He by lia. exact He.
Qed.
Lemma after8 : after u 8 <= 9.
Proof.
  assert (HU := proj1 HA). unfold after. assert (P : 1 / 10 <= (1 - u) ^ 8). { apply Rle_trans with ((3 / 4) ^ 8); [lra|]. apply pow_incr. lra. } assert (B : / (1 - u) ^ 8 <= / (1 / 10)) by (apply Rinv_le_contravar; lra). lra.
Qed.
Lemma entry_core s (F : Z -> Z -> C) n m E M : (forall k, F n (- k)%Z = (sgnC k * Cconj (F n k))%C) -> 0 <= E -> 0 <= M -> Cmod (s n (Z.abs m) - F n (Z.abs m))%C <= E -> Cmod (F n (Z.abs m)) <= M ->
  Cmod (fl_reflected A s n m - F n m)%C <= 2 * after u 8 * M + 19 * E.
Proof.
  intros Sy HE HM H1 H2. assert (R1 := reflected_near s n m). assert (R2 := target_exact s F n m E Sy H1). set (w := s n (Z.abs m)) in *. set (Q := F n (Z.abs m)) in *. assert (AP : 0 <= after u 8) by (unfold after; assert (G := ihk_ge1 A u HA 8); lra). assert (A9 := after8).
  assert (W : Cmod w <= E + M). { replace w with ((w - Q) + Q)%C by ring. apply Rle_trans with (1 := Cmod_triangle _ _). lra. }
  replace (fl_reflected A s n m - F n m)%C with ((fl_reflected A s n m - target s n m) + (target s n m - F n m))%C by ring. apply Rle_trans with (1 := Cmod_triangle _ _).
  assert (2 * after u 8 * Cmod w <= 2 * after u 8 * (E + M)) by (apply Rmult_le_compat_l; lra). nra.
Qed.
End Rounding.

Lemma moment_le l m : (Z.abs m <= l)%Z -> exists M, 0 <= M /\ forall pts, (forall p, In p pts -> vnorm (pp p) <> 0) -> Cmod (inner_moment pts l m) <= M * moment_size l pts.
Proof.
  intros Hm. destruct (harmonic_constants l m) as (K & M & P1 & P2 & B & _). exists M. split; [exact P2|]. intros pts H. unfold inner_moment, moment_size, lsum, lsr. induction pts as [|p pts IH]; cbn [fold_right].
  - rewrite Cmod_0, Rmult_0_r. apply Rle_refl.
  - assert (H0 := H p (or_introl eq_refl)). specialize (IH (fun q Hq => H q (or_intror Hq))). apply Rle_trans with (1 := Cmod_triangle _ _). rewrite Rmult_plus_distr_l. apply Rplus_le_compat; [|exact IH].
    rewrite <- (dir_exact l m (pp p) Hm H0). rewrite !Cmod_mult, !Cmod_R. assert (U := unit_size (acos (snd (pp p) / vnorm (pp p))) (arctan2 (snd (fst (pp p))) (fst (fst (pp p))))). assert (BB := B (dir (pp p)) U).
    assert (NN : 0 <= vnorm (pp p) ^ Z.to_nat l) by (apply pow_le; destruct (pp p) as [[x y] z]; rewrite vnorm_xyz; apply sqrt_pos). rewrite (Rabs_pos_eq (vnorm (pp p) ^ Z.to_nat l)) by exact NN. assert (PM := Rabs_pos (pm p)).
    replace (M * (Rabs (pm p) * vnorm (pp p) ^ Z.to_nat l)) with (Rabs (pm p) * (vnorm (pp p) ^ Z.to_nat l * M)) by ring. apply Rmult_le_compat_l; [exact PM|]. now apply Rmult_le_compat_l.
Qed.
Lemma exact_single l m pts Q : (Z.abs m <= l)%Z -> (forall p, In p pts -> vnorm (pp p) <> 0) -> qmoment l m pts = Ok Q -> Q = inner_moment pts l m.
Proof.
  intros Hm H E. destruct (Z.eq_dec l 0) as [->|Hl].
  - replace m with 0%Z in * by lia. unfold qmoment in E. cbn [Z.eqb] in E. injection E as <-. rewrite inner00. unfold csum, total_mass. clear. induction pts as [|p pts IH]; cbn [map lsum fold_right lsr]; [unfold Rdiv; rewrite Rmult_0_l; reflexivity|]. unfold lsr in *. rewrite IH. apply injective_projections; cbn; unfold Rdiv; ring.
  - rewrite C08_qmoment_single in E; [now injection E as <-|lia|exact Hm|]. intros p Hp AO. apply (H p Hp). unfold at_origin in AO. rewrite AO. apply vnorm_v0.
Qed.
Lemma not_before pts : (forall p, In p pts -> vnorm (pp p) <> 0) -> ~ origin_before_other pts.
Proof.
  intros H B. unfold origin_before_other in B. assert (G : exists p, In p pts /\ at_origin p). { destruct B as (l1 & p & l2 & q & l3 & -> & B1 & _). exists p. split; [apply in_or_app; right; now left|exact B1]. }
  destruct G as (p & Hp & AO). apply (H p Hp). unfold at_origin in AO. rewrite AO. apply vnorm_v0.
Qed.
Lemma all_core A u lib K n m (q : Z -> Z -> C) L pts t e : accurate u A -> 0 < K -> (Z.abs m <= n)%Z -> (n <= L)%Z -> fl_qmoments A lib L pts q -> 0 <= e ->
  (forall s, fl_qmoment A lib n (Z.abs m) pts s -> exists Q, qmoment n (Z.abs m) pts = Ok Q /\ Cmod (s - Q)%C <= K * e * moment_size n pts) ->
  after u 8 <= t -> (forall M, 0 <= M -> Cmod (inner_moment pts n (Z.abs m)) <= M * moment_size n pts -> exists Q, qmoments L pts = Ok Q /\ deg Q = L /\
    Cmod (q n m - mom Q n m)%C <= (2 * M * t + 19 * K * e) * moment_size n pts).
Proof.
  intros HA HK Hm HL (HC & s & Hs & Hq) He H Ht M HM BM. assert (SP := size_pos n pts).
  assert (HN : forall p, In p pts -> vnorm (pp p) <> 0) by (intros p Hp; apply (radius_zero A u HA); now apply HC).
  destruct (C08_qmoments L pts ltac:(lia) (not_before pts HN)) as (Q & EQ & DQ & HQ). exists Q. split; [exact EQ|]. split; [exact DQ|]. rewrite (proj1 HQ n m ltac:(lia) Hm). rewrite (Hq n m Hm HL).
  destruct (H _ (Hs n (Z.abs m) ltac:(lia) HL)) as (Q1 & E1 & B1). apply (exact_single n (Z.abs m) pts Q1 ltac:(lia) HN) in E1. subst Q1.
  assert (Z1 : 0 <= K * e * moment_size n pts) by (apply Rmult_le_pos; [apply Rmult_le_pos; lra|exact SP]). assert (Z2 : 0 <= M * moment_size n pts) by (now apply Rmult_le_pos).
  apply Rle_trans with (1 := entry_core A u HA s (inner_moment pts) n m _ _ (inner_symm pts n) Z1 Z2 B1 BM). assert (2 * after u 8 * (M * moment_size n pts) <= 2 * t * (M * moment_size n pts)) by (apply Rmult_le_compat_r; lra). lra.
Qed.
(* every entry of the array of moments, of both signs of the order *)
Theorem C85_rounding : forall n m, (Z.abs m <= n)%Z -> exists K, 0 < K /\
  forall u A lib eta L pts q, accurate u A -> accurate_lib u lib -> 0 <= eta <= 1 -> sph_within eta lib n (Z.abs m) -> (n <= L)%Z -> fl_qmoments A lib L pts q ->
    exists Q, qmoments L pts = Ok Q /\ deg Q = L /\
      Cmod (q n m - mom Q n m)%C <= K * (sqrt u + eta + after u (8 + 4 * Z.to_nat n + length pts)) * moment_size n pts.
Proof.
  intros n m Hm. destruct (C84_rounding n (Z.abs m) ltac:(lia)) as (K & HK & HR). destruct (moment_le n (Z.abs m) ltac:(lia)) as (M & HM & BM). exists (2 * M + 19 * K). split; [lra|].
  intros u A lib eta L pts q HA HL He Hs HnL HQ. set (N := (8 + 4 * Z.to_nat n + length pts)%nat). assert (SP := size_pos n pts). assert (SU := sqrt_pos u).
  assert (A1 : after u (6 + 4 * Z.to_nat n + length pts) <= after u N). { unfold after. assert (G := ihk_mono A u HA (6 + 4 * Z.to_nat n + length pts) N ltac:(unfold N; lia)). lra. }
  assert (A2 : after u 8 <= after u N). { unfold after. assert (G := ihk_mono A u HA 8 N ltac:(unfold N; lia)). lra. } assert (A0 : 0 <= after u 8) by (unfold after; assert (G := ihk_ge1 A u HA 8); lra).
  assert (HN : forall p, In p pts -> vnorm (pp p) <> 0) by (intros p Hp; apply (radius_zero A u HA); now apply HQ).
  destruct (all_core A u lib K n m q L pts (after u N) (sqrt u + eta + after u N) HA HK Hm HnL HQ ltac:(lra)) with (M := M) as (Q & E & D & B); [|exact A2|exact HM|now apply BM|].
  - intros s Hqs. destruct (HR u A lib eta pts s HA HL He Hs Hqs) as (Q & E & B). exists Q. split; [exact E|]. apply Rle_trans with (1 := B). apply Rmult_le_compat_r; [exact SP|]. apply Rmult_le_compat_l; lra.
  - exists Q. split; [exact E|]. split; [exact D|]. apply Rle_trans with (1 := B). apply Rmult_le_compat_r; [exact SP|]. assert (0 <= M * (sqrt u + eta)) by (apply Rmult_le_pos; lra). lra.
Qed.
Print Assumptions C85_rounding.
Theorem C85_off_axis : forall n m, (Z.abs m <= n)%Z -> exists K, 0 < K /\
  forall u A lib eta s L pts q, accurate u A -> accurate_lib u lib -> 0 <= eta <= 1 -> sph_within eta lib n (Z.abs m) -> 0 < s <= 1 -> off_axis s pts -> (n <= L)%Z -> fl_qmoments A lib L pts q ->
    exists Q, qmoments L pts = Ok Q /\ deg Q = L /\
      Cmod (q n m - mom Q n m)%C <= K * (u / s + eta + after u (8 + 4 * Z.to_nat n + length pts)) * moment_size n pts.
Proof.
  intros n m Hm. destruct (C84_off_axis n (Z.abs m) ltac:(lia)) as (K & HK & HR). destruct (moment_le n (Z.abs m) ltac:(lia)) as (M & HM & BM). exists (2 * M + 19 * K). split; [lra|].
  intros u A lib eta s L pts q HA HL He Hs Hss Off HnL HQ. set (N := (8 + 4 * Z.to_nat n + length pts)%nat). assert (SP := size_pos n pts). assert (HU := proj1 HA). assert (SU : 0 <= u / s) by (apply Rmult_le_pos; [lra|left; apply Rinv_0_lt_compat; lra]).
  assert (A1 : after u (6 + 4 * Z.to_nat n + length pts) <= after u N). { unfold after. assert (G := ihk_mono A u HA (6 + 4 * Z.to_nat n + length pts) N ltac:(unfold N; lia)). lra. }
  assert (A2 : after u 8 <= after u N). { unfold after. assert (G := ihk_mono A u HA 8 N ltac:(unfold N; lia)). lra. } assert (A0 : 0 <= after u 8) by (unfold after; assert (G := ihk_ge1 A u HA 8); lra).
  assert (HN : forall p, In p pts -> vnorm (pp p) <> 0) by (intros p Hp; apply (radius_zero A u HA); now apply HQ).
  destruct (all_core A u lib K n m q L pts (after u N) (u / s + eta + after u N) HA HK Hm HnL HQ ltac:(lra)) with (M := M) as (Q & E & D & B); [|exact A2|exact HM|now apply BM|].
  - intros z Hqs. destruct (HR u A lib eta s pts z HA HL He Hs Hss Off Hqs) as (Q & E & B). exists Q. split; [exact E|]. apply Rle_trans with (1 := B). apply Rmult_le_compat_r; [exact SP|]. apply Rmult_le_compat_l; lra.
  - exists Q. split; [exact E|]. split; [exact D|]. apply Rle_trans with (1 := B). apply Rmult_le_compat_r; [exact SP|]. assert (0 <= M * (u / s + eta)) by (apply Rmult_le_pos; lra). lra.
Qed.
Print Assumptions C85_off_axis.
(* a sum from the right *)
Fixpoint in_turn (A : arith) (l : list R) : R := match l with nil => 0 | y :: nil => y | y :: l' => rnd A (y + in_turn A l') end.
Lemma in_turn_sum A l : fl_sum A l (in_turn A l).
Proof.
  destruct l as [|y l]; [reflexivity|]. cbn [fl_sum]. revert y. induction l as [|z l IH]; intros y; [constructor|]. change (in_turn A (y :: z :: l)) with (rnd A (y + in_turn A (z :: l))). apply (fs_add A (y :: nil) (z :: l)); [constructor|apply IH|apply Permutation_refl].
Qed.
(* in binary64 an array comes out whenever no point is at the origin *)
Theorem C85_results_exist : forall lib L pts, (forall p, In p pts -> fmt (snd (pp p)) /\ pp p <> v0) -> exists q, fl_qmoments binary64 lib L pts q.
Proof.
  intros lib L pts H. assert (HC : forall p, In p pts -> fl_radius binary64 (pp p) <> 0 /\ -1 <= fl_cosine binary64 (pp p) <= 1). { intros p Hp. destruct (H p Hp) as [F N]. split; [now apply off_origin|]. destruct (pp p) as [[a b] c]. now apply C84_cosine_in_range. }
  set (s := fun n m : Z => if (n =? 0)%Z then (in_turn binary64 (map (fl_monopole binary64) pts), 0) else
    (in_turn binary64 (map (fun p => fst (fl_term binary64 lib n m p)) pts), in_turn binary64 (map (fun p => snd (fl_term binary64 lib n m p)) pts))).
  assert (Hs : forall n m, fl_qmoment binary64 lib n m pts (s n m)). { intros n m. unfold fl_qmoment, s. destruct (n =? 0)%Z; cbn [fst snd]; [split; [apply in_turn_sum|reflexivity]|split; [exact HC|split; apply in_turn_sum]]. }
  exists (fl_reflected binary64 s). split; [exact HC|]. exists s. split; [intros n m _ _; apply Hs|reflexivity].
Qed.
Print Assumptions C85_results_exist.
(* the loss of C84 reaches the array: the entries of degree 1 and order 1 or -1 come out as 0 *)
Theorem C85_lost : forall lib L q, (1 <= L)%Z -> accurate_lib (/ 2 ^ 53) lib -> sph_within 0 lib 1 1 -> fl_qmoments binary64 lib L (near_axis :: nil) q ->
  q 1%Z 1%Z = RtoC 0 /\ q 1%Z (-1)%Z = RtoC 0 /\ exists Q, qmoments L (near_axis :: nil) = Ok Q /\ / 16 * sqrt (/ 2 ^ 53) * moment_size 1 (near_axis :: nil) <= Cmod (mom Q 1 1) /\ Cmod (mom Q 1 (-1)) = Cmod (mom Q 1 1).
Proof.
  intros lib L q HL Hlib Hs (HC & s & H & Hq). destruct (C84_lost lib (s 1%Z 1%Z) Hlib Hs (H 1%Z 1%Z ltac:(lia) HL)) as (E0 & Q & EQ & B). assert (HA := C64_binary64_is_accurate).
  assert (HN : forall p, In p (near_axis :: nil) -> vnorm (pp p) <> 0) by (intros p Hp; apply (radius_zero binary64 (/ 2 ^ 53) HA); now apply HC).
  assert (Z : forall m, Z.abs m = 1%Z -> fl_reflected binary64 s 1 m = RtoC 0).
  { intros m Hm. assert (Z0 := rnd_0 binary64 _ HA). assert (M : m = 1%Z \/ m = (-1)%Z) by lia. destruct M as [-> | ->]; unfold fl_reflected; cbn [Z.ltb Z.compare Z.opp Z.eqb Z.abs]; rewrite E0; unfold fl_cadd, fl_cscale; cbn [fst snd RtoC Cconj]; rewrite ?Ropp_0, ?Rmult_0_l, ?Z0, ?Rminus_0_r, ?Rplus_0_r, ?Z0, ?Rplus_0_r, ?Z0; reflexivity. }
  split; [rewrite (Hq 1%Z 1%Z) by lia; now apply Z|]. split; [rewrite (Hq 1%Z (-1)%Z) by lia; now apply Z|].
  destruct (C08_qmoments L (near_axis :: nil) ltac:(lia) (not_before _ HN)) as (QA & EA & DA & HA2). exists QA. split; [exact EA|]. rewrite (proj1 HA2 1%Z 1%Z) by lia. rewrite (proj1 HA2 1%Z (-1)%Z) by lia. apply (exact_single 1 1 _ Q ltac:(lia) HN) in EQ. subst Q. rewrite E0 in B. split.
  - replace (RtoC 0 - inner_moment (near_axis :: nil) 1 1)%C with (- inner_moment (near_axis :: nil) 1 1)%C in B by ring. now rewrite Cmod_opp in B.
  - assert (I := inner_symm (near_axis :: nil) 1 1). change (- (1))%Z with (-1)%Z in I. rewrite I. change (sgnC 1) with (RtoC (-1)). rewrite Cmod_mult, cmod_conj5, Cmod_R. rewrite Rabs_left by lra. ring.
Qed.
Print Assumptions C85_lost.
(* concrete: three points, one of them on the axis *)
Example C85_case : exists q, fl_qmoments binary64 perfect 3 (mkpt 1 (1, 2, 1) :: mkpt 3 (0, 0, 1) :: mkpt (-2) (5, 0, 0) :: nil) q /\ accurate (/ 2 ^ 53) binary64 /\ accurate_lib (/ 2 ^ 53) perfect /\ sph_within 0 perfect 3 2.
Proof.
  destruct (C85_results_exist perfect 3 (mkpt 1 (1, 2, 1) :: mkpt 3 (0, 0, 1) :: mkpt (-2) (5, 0, 0) :: nil)) as (q & Hq).
  - assert (F1 : fmt 1) by (change 1 with (Flocq.Core.Raux.bpow Flocq.Core.Zaux.radix2 0); apply Flocq.Core.Generic_fmt.generic_format_bpow; unfold Flocq.Core.FLX.FLX_exp; lia). intros p [<-|[<-|[<-|[]]]]; cbn [pp snd]; (split; [first [exact F1|apply Flocq.Core.Generic_fmt.generic_format_0]|intros E; injection E; intros; lra]).
  - exists q. assert (U : 0 <= / 2 ^ 53) by (exact (proj1 (proj1 C64_binary64_is_accurate))). destruct (perfect_accurate _ U) as [P1 P2]. split; [exact Hq|]. split; [exact C64_binary64_is_accurate|]. split; [exact P1|apply P2].
Qed.
(* and a point near the axis: what C85_lost is about *)
Example C85_lost_case : exists q, fl_qmoments binary64 perfect 1 (near_axis :: nil) q.
Proof.
  apply C85_results_exist. intros p [<-|[]]. unfold near_axis. cbn [pp snd]. split; [change 1 with (Flocq.Core.Raux.bpow Flocq.Core.Zaux.radix2 0); apply Flocq.Core.Generic_fmt.generic_format_bpow; unfold Flocq.Core.FLX.FLX_exp; lia|intros E; injection E; intros; lra].
Qed.
