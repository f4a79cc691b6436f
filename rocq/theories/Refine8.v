(* Sectors of rings in polar and in Cartesian coordinates, and their lattice points. *)
From Coq Require Import Reals Lra Lia List.
From Coquelicot Require Import Coquelicot.
From Verif Require Import Glib LipInt BodyInt SolidSpec VInt PointSpec NewtonSpec Newton ShapeSpec GlibShapes GlibShapesProofs Refine2 Refine3 Refine4 Refine5 Polar Refine7.
From Verif Require Import Cplx.
From Verif Require Import Refine.
Import ListNotations.
Open Scope R_scope.

Lemma UC_abs (X : pspace) (f : X -> R) : UC X Rs f -> UC X Rs (fun x => Rabs (f x)).
Proof.
  intros H. apply (UC_comp X Rs Rs f Rabs H). intros A. split.
  - exists (Rabs A). split; [apply Rabs_pos|]. intros x Hx. cbn in *. rewrite Rabs_Rabsolu. eapply Rle_trans; [exact Hx|apply Rle_abs].
  - intros eps He. exists eps. split; [exact He|]. intros x y _ _ D. cbn in *. eapply Rle_trans; [apply Rabs_triang_inv2|exact D].
Qed.
Lemma UC_max (X : pspace) (f g : X -> R) : UC X Rs f -> UC X Rs g -> UC X Rs (fun x => Rmax (f x) (g x)).
Proof.
  intros F G. apply (UC_ext X Rs (fun x => / 2 * (f x + g x + Rabs (f x - g x)))).
  - intros x. unfold Rmax, Rabs. destruct (Rle_dec (f x) (g x)), (Rcase_abs (f x - g x)); lra.
  - apply UC_mult; [apply UC_cst|]. apply UC_add; [now apply UC_add|]. apply UC_abs. now apply UC_sub.
Qed.
Lemma UC_chord2 (X : pspace) (f g : X -> R) : UC X Rs f -> UC X Rs g -> UC X Rs (fun x => sqrt (f x ^ 2 - g x ^ 2)).
Proof.
  intros F G. apply (UC_comp X Rs Rs (fun x => f x ^ 2 - g x ^ 2) sqrt); [|apply UC_sqrt]. apply UC_sub.
  - apply (UC_ext X Rs (fun x => f x * f x)); [intros x; cbn [pow]; rewrite Rmult_1_r; reflexivity|now apply UC_mult].
  - apply (UC_ext X Rs (fun x => g x * g x)); [intros x; cbn [pow]; rewrite Rmult_1_r; reflexivity|now apply UC_mult].
Qed.
Lemma RInt_sum (f g : R -> R) a b : ex_RInt f a b -> ex_RInt g a b -> RInt (fun x => f x + g x) a b = RInt f a b + RInt g a b.
Proof. intros F G. exact (RInt_plus (V := R_CompleteNormedModule) f g a b F G). Qed.
Lemma RInt_dif (f g : R -> R) a b : ex_RInt f a b -> ex_RInt g a b -> RInt (fun x => f x - g x) a b = RInt f a b - RInt g a b.
Proof. intros F G. exact (RInt_minus (V := R_CompleteNormedModule) f g a b F G). Qed.
Lemma RInt_join (f : R -> R) a b c : UC Rs Rs f -> RInt f a b + RInt f b c = RInt f a c.
Proof. intros F. exact (RInt_Chasles (V := R_CompleteNormedModule) f a b c (ex_int1 f a b F) (ex_int1 f b c F)). Qed.
Lemma RInt_in (f g : R -> R) a b : a <= b -> (forall x, a <= x <= b -> f x = g x) -> RInt f a b = RInt g a b.
Proof. intros Hab H. apply (RInt_ext (V := R_CompleteNormedModule)). rewrite Rmin_left, Rmax_right by exact Hab. intros x Hx. apply H. lra. Qed.

Lemma sub_of_sum (p q t : R) : p + q = t -> q = t - p. Proof. lra. Qed.
Section Ring.
Variables (beta k : R).
Hypotheses (Hk : k * sin beta = cos beta) (Hb : 0 < beta <= PI / 2).
Let s := sin beta.
Lemma s_pos : 0 < s. Proof. assert (HPI := PI_RGT_0). apply sin_gt_0; lra. Qed.
Lemma s_le1 : s <= 1. Proof. apply SIN_bound. Qed.
Lemma k_pos : 0 <= k.
Proof.
  assert (S := s_pos). assert (C : 0 <= cos beta) by (assert (HPI := PI_RGT_0); apply cos_ge_0; lra). rewrite <- Hk in C. fold s in C. destruct (Rle_dec 0 k) as [H|H]; [exact H|]. exfalso. assert (k * s < 0) by nra. lra.
Qed.
(* past the end of the arc the ray is further out *)
Lemma arc_ray r1 v : 0 <= r1 -> 0 <= v -> (v <= r1 * s -> k * v <= sqrt (r1 ^ 2 - v ^ 2)) /\ (r1 * s <= v -> sqrt (r1 ^ 2 - v ^ 2) <= k * v).
Proof.
  intros Hr Hv. assert (S := s_pos). assert (K := k_pos). assert (E : (k * s) ^ 2 + s ^ 2 = 1). { unfold s. rewrite Hk. assert (T := sin2_cos2 beta). unfold Rsqr in T. lra. }
  assert (KV : 0 <= k * v) by (now apply Rmult_le_pos). assert (F : (k * v) ^ 2 * s ^ 2 + v ^ 2 * s ^ 2 = v ^ 2) by (replace ((k * v) ^ 2 * s ^ 2 + v ^ 2 * s ^ 2) with (v ^ 2 * ((k * s) ^ 2 + s ^ 2)) by ring; rewrite E; ring). assert (S2 : 0 < s ^ 2) by (now apply pow_lt).
  split; intros H.
  - rewrite <- (sqrt_pow2 (k * v)) by exact KV. apply sqrt_le_1_alt. assert (v ^ 2 <= (r1 * s) ^ 2) by (apply pow_incr; lra). apply (Rmult_le_reg_r (s ^ 2)); [exact S2|]. replace ((r1 ^ 2 - v ^ 2) * s ^ 2) with ((r1 * s) ^ 2 - v ^ 2 * s ^ 2) by ring. lra.
  - rewrite <- (sqrt_pow2 (k * v)) by exact KV. apply sqrt_le_1_alt. assert ((r1 * s) ^ 2 <= v ^ 2) by (apply pow_incr; split; [apply Rmult_le_pos; lra|lra]). apply (Rmult_le_reg_r (s ^ 2)); [exact S2|]. replace ((r1 ^ 2 - v ^ 2) * s ^ 2) with ((r1 * s) ^ 2 - v ^ 2 * s ^ 2) by ring. lra.
Qed.
Definition inner (r1 v : R) : R := Rmax (k * v) (sqrt (r1 ^ 2 - v ^ 2)).
Lemma U_inner r1 : UC Rs Rs (inner r1).
Proof. assert (U0 : UC Rs Rs (fun y => y)) by (apply UC_LL, LL_id). unfold inner. apply UC_max; [apply UC_mult; [apply UC_cst|exact U0]|now apply UC_chord]. Qed.
Lemma U_strip (h : R * R -> R) (lo hi : R -> R) : UC P2 Rs h -> UC Rs Rs lo -> UC Rs Rs hi -> UC Rs Rs (fun v => RInt (fun w => h (w, v)) (lo v) (hi v)).
Proof. intros G L H. apply (UC_int Rs (fun p => h (snd p, fst p)) lo hi); [now apply UC_col|exact L|exact H]. Qed.
Theorem ring_polar (h : R * R -> R) r1 rho : UC P2 Rs h -> 0 <= r1 <= rho ->
  RInt (fun v => RInt (fun w => h (w, v)) (inner r1 v) (sqrt (rho ^ 2 - v ^ 2))) 0 (rho * s) = RInt (fun th => RInt (fun r => r * h (r * cos th, r * sin th)) r1 rho) 0 beta.
Proof.
  intros UH Hr. assert (S := s_pos). assert (K := k_pos). assert (U0 : UC Rs Rs (fun y => y)) by (apply UC_LL, LL_id). assert (Uk : UC Rs Rs (fun v => k * v)) by (apply UC_mult; [apply UC_cst|exact U0]). assert (Ub : 0 <= beta <= PI / 2) by lra.
  assert (EX : forall v a b, ex_RInt (fun w => h (w, v)) a b) by (intros v a b; exact (ex_row (fun p => h (snd p, fst p)) v a b (UC_col h UH))).
  set (m := fun v => RInt (fun w => h (w, v)) (k * v) (inner r1 v)). assert (Um : UC Rs Rs m) by (apply U_strip; [exact UH|exact Uk|apply U_inner]).
  assert (Uc : UC Rs Rs (fun v => RInt (fun w => h (w, v)) (k * v) (sqrt (rho ^ 2 - v ^ 2)))) by (apply U_strip; [exact UH|exact Uk|now apply UC_chord]).
  rewrite (RInt_fext _ (fun v => RInt (fun w => h (w, v)) (k * v) (sqrt (rho ^ 2 - v ^ 2)) - m v)).
  2:{ intros v. unfold m. assert (C := RInt_Chasles (V := R_CompleteNormedModule) (fun w => h (w, v)) (k * v) (inner r1 v) (sqrt (rho ^ 2 - v ^ 2)) (EX _ _ _) (EX _ _ _)). change (RInt (fun w => h (w, v)) (k * v) (inner r1 v) + RInt (fun w => h (w, v)) (inner r1 v) (sqrt (rho ^ 2 - v ^ 2)) = RInt (fun w => h (w, v)) (k * v) (sqrt (rho ^ 2 - v ^ 2))) in C. exact (sub_of_sum _ _ _ C). }
  rewrite RInt_dif by (now apply ex_int1). rewrite <- (RInt_join m 0 (r1 * s) (rho * s) Um).
  assert (L0 : 0 <= r1 * s) by (apply Rmult_le_pos; lra). assert (L1 : r1 * s <= rho * s) by (apply Rmult_le_compat_r; lra).
  rewrite (RInt_in m (fun v => RInt (fun w => h (w, v)) (k * v) (sqrt (r1 ^ 2 - v ^ 2))) 0 (r1 * s) L0).
  2:{ intros v Hv. unfold m, inner. rewrite Rmax_right; [reflexivity|]. apply arc_ray; lra. }
  rewrite (RInt_in m (fun _ => 0) (r1 * s) (rho * s) L1).
  2:{ intros v Hv. unfold m, inner. rewrite Rmax_left; [apply RInt_pt|]. apply arc_ray; lra. }
  rewrite RInt_nul, Rplus_0_r.
  assert (A1 := sector_polar beta k rho Hk Ub K ltac:(lra) h UH). assert (A2 := sector_polar beta k r1 Hk Ub K ltac:(lra) h UH). unfold cartI, polI in A1, A2. fold s in A1, A2. rewrite A1, A2.
  assert (V := U_pol h UH). assert (UR : forall a b, UC Rs Rs (fun th => RInt (fun r => r * h (r * cos th, r * sin th)) a b)) by (intros a b; exact (UC_row _ a b V)).
  rewrite <- RInt_dif by (apply ex_int1, UR). apply RInt_fext. intros th. assert (EY : forall a b, ex_RInt (fun r => r * h (r * cos th, r * sin th)) a b) by (intros a b; exact (ex_row _ th a b V)).
  assert (C := RInt_Chasles (V := R_CompleteNormedModule) (fun r => r * h (r * cos th, r * sin th)) 0 r1 rho (EY _ _) (EY _ _)). change (RInt (fun r => r * h (r * cos th, r * sin th)) 0 r1 + RInt (fun r => r * h (r * cos th, r * sin th)) r1 rho = RInt (fun r => r * h (r * cos th, r * sin th)) 0 rho) in C. exact (eq_sym (sub_of_sum _ _ _ C)).
Qed.
(* the points of the sector between the axis of w and the ray at beta *)
Definition sec (r1 rho w v : R) : Prop := 0 <= v <= rho * s /\ inner r1 v <= w <= sqrt (rho ^ 2 - v ^ 2).
Lemma sec_iff r1 rho w v : 0 <= r1 <= rho -> sec r1 rho w v <-> exists r q, r1 <= r <= rho /\ 0 <= q <= beta /\ w = r * cos q /\ v = r * sin q.
Proof.
  intros Hr. assert (S := s_pos). assert (S1 := s_le1). assert (K := k_pos). assert (HPI := PI_RGT_0). unfold sec, inner. split.
  - intros ((V0 & V1) & W1 & W2). assert (WK := Rle_trans _ _ _ (Rmax_l _ _) W1). assert (WC := Rle_trans _ _ _ (Rmax_r _ _) W1). assert (KV : 0 <= k * v) by (now apply Rmult_le_pos).
    assert (VR : v <= rho) by (apply Rle_trans with (rho * s); [exact V1|rewrite <- (Rmult_1_r rho) at 2; apply Rmult_le_compat_l; lra]).
    assert (D2 : w ^ 2 + v ^ 2 <= rho ^ 2). { apply chord_iff; [rewrite Rabs_pos_eq; lra|]. assert (Q := sqrt_pos (rho ^ 2 - v ^ 2)). lra. }
    assert (D1 : r1 ^ 2 <= w ^ 2 + v ^ 2). { destruct (Rle_dec 0 (r1 ^ 2 - v ^ 2)) as [P|P]; [|assert (0 <= w ^ 2) by apply pow2_ge_0; lra]. assert (sqrt (r1 ^ 2 - v ^ 2) ^ 2 <= w ^ 2) by (apply pow_incr; split; [apply sqrt_pos|exact WC]). rewrite pow2_sqrt in H by exact P. lra. }
    destruct (arctan2_polar w v) as (E1 & E2 & E3). assert (RQ : rad w v ^ 2 = w ^ 2 + v ^ 2) by (unfold rad; rewrite pow2_sqrt; [ring|assert (0 <= w ^ 2) by apply pow2_ge_0; assert (0 <= v ^ 2) by apply pow2_ge_0; lra]).
    assert (RP : 0 <= rad w v) by apply sqrt_pos. set (r := rad w v) in *. set (q := arctan2 v w) in *.
    assert (R1 : r1 <= r). { apply Rnot_lt_le. intros C. assert (r ^ 2 < r1 ^ 2) by nra. lra. }
    assert (R2 : r <= rho) by nra.
    destruct (Req_dec r 0) as [Z|Z].
    + exists r, 0. rewrite Z in *. split; [lra|]. split; [lra|]. rewrite E1, E2. split; ring.
    + assert (P : 0 < r) by lra. exists r, q. split; [lra|]. split; [|split; assumption].
      assert (Q0 : 0 <= q). { apply Rnot_lt_le. intros C. assert (sin q < 0) by (apply sin_lt_0_var; lra). nra. }
      split; [exact Q0|]. apply Rnot_lt_le. intros C. assert (G : 0 < sin (q - beta)) by (apply sin_gt_0; lra). rewrite sin_minus in G. fold s in G.
      assert (r * (sin q * cos beta - cos q * s) > 0) by (apply Rmult_lt_0_compat; lra). replace (r * (sin q * cos beta - cos q * s)) with (v * (k * s) - w * s) in H by (rewrite E1 at 1; unfold s; rewrite Hk; rewrite E2 at 1; ring).
      replace (v * (k * s) - w * s) with ((k * v - w) * s) in H by ring. nra.
  - intros (r & q & Hrr & Hq & -> & ->). assert (SQ : 0 <= sin q) by (apply sin_ge_0; lra). assert (CQ : 0 <= cos q) by (apply cos_ge_0; lra). assert (SB : sin q <= s) by (apply sin_incr_1; lra).
    assert (T := sin2_cos2 q). unfold Rsqr in T. assert (RR : (r * cos q) ^ 2 + (r * sin q) ^ 2 = r ^ 2) by (replace ((r * cos q) ^ 2 + (r * sin q) ^ 2) with (r ^ 2 * (sin q * sin q + cos q * cos q)) by ring; rewrite T; ring).
    assert (W0 : 0 <= r * cos q) by (apply Rmult_le_pos; lra).
    split; [split; [apply Rmult_le_pos; lra|apply Rmult_le_compat; lra]|]. split.
    + apply Rmax_lub.
      * assert (G : 0 <= sin (beta - q)) by (apply sin_ge_0; lra). rewrite sin_minus in G. fold s in G. apply (Rmult_le_reg_r s); [exact S|]. replace (k * (r * sin q) * s) with (r * (cos beta * sin q)) by (rewrite <- Hk; unfold s; ring). replace (r * cos q * s) with (r * (s * cos q)) by ring. apply Rmult_le_compat_l; lra.
      * rewrite <- (sqrt_pow2 (r * cos q)) by exact W0. apply sqrt_le_1_alt. assert (r1 ^ 2 <= r ^ 2) by (apply pow_incr; lra). lra.
    + rewrite <- (sqrt_pow2 (r * cos q)) by exact W0. apply sqrt_le_1_alt. assert (r ^ 2 <= rho ^ 2) by (apply pow_incr; lra). lra.
Qed.
Lemma inner_ge r1 v : 0 <= r1 -> 0 <= v -> r1 * cos beta <= inner r1 v.
Proof.
  intros Hr Hv. assert (S := s_pos). assert (K := k_pos). unfold inner. destruct (Rle_dec v (r1 * s)) as [H|H].
  - apply Rle_trans with (sqrt (r1 ^ 2 - v ^ 2)); [|apply Rmax_r]. assert (C : 0 <= cos beta) by (assert (HPI := PI_RGT_0); apply cos_ge_0; lra). rewrite <- (sqrt_pow2 (r1 * cos beta)) by (now apply Rmult_le_pos). apply sqrt_le_1_alt.
    assert (v ^ 2 <= (r1 * s) ^ 2) by (apply pow_incr; lra). assert (T := sin2_cos2 beta). unfold Rsqr in T. fold s in T. assert ((r1 * s) ^ 2 + (r1 * cos beta) ^ 2 = r1 ^ 2) by (replace ((r1 * s) ^ 2 + (r1 * cos beta) ^ 2) with (r1 ^ 2 * (s * s + cos beta * cos beta)) by ring; rewrite T; ring). lra.
  - apply Rle_trans with (k * v); [|apply Rmax_l]. rewrite <- Hk. fold s. replace (r1 * (k * s)) with (k * (r1 * s)) by ring. apply Rmult_le_compat_l; lra.
Qed.
Lemma inner_le r1 rho v : 0 <= r1 <= rho -> 0 <= v <= rho * s -> inner r1 v <= sqrt (rho ^ 2 - v ^ 2).
Proof.
  intros Hr Hv. unfold inner. apply Rmax_lub; [apply arc_ray; lra|]. apply sqrt_le_1_alt. assert (r1 ^ 2 <= rho ^ 2) by (apply pow_incr; lra). lra.
Qed.
Lemma inner_ge0 r1 v : 0 <= v -> 0 <= inner r1 v.
Proof. intros Hv. apply Rle_trans with (k * v); [apply Rmult_le_pos; [apply k_pos|exact Hv]|apply Rmax_l]. Qed.
End Ring.
