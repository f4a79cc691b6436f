(* C84: rounding errors of PG2Multi.qmoment: bounded by a constant of the degree and order times the square root of the unit
   roundoff, or times u/s away from the z axis; the square root is attained; in binary64 the arccos is never nan. *)
From Coq Require Import Reals Lra Lia List ZArith Permutation.
From Flocq Require Import Core Relative.
From Coquelicot Require Import Coquelicot.
From Verif Require Import Glib GlibSpec GlibProofs NewtonSpec Newton MathSpec Solid SolidSpec MomentSpec Pg2Multi Pg2MultiProofs Props_Moments LipInt FloatSpec FlGlib Props_Float FlMomSpec FlMom Refine3.
From Verif Require Import Cplx.
From Verif Require Import Refine.
Open Scope R_scope.

Lemma cos_lip a b : Rabs (cos a - cos b) <= Rabs (a - b).
Proof.
  destruct (MVT_abs cos (fun x => - sin x) b a) as (c & E & _). { intros c _. apply derivable_pt_lim_cos. } rewrite E. rewrite Rabs_Ropp. assert (B := SIN_bound c). assert (K : Rabs (sin c) <= 1) by (apply Rabs_le; lra). assert (P := Rabs_pos (a - b)). nra.
Qed.
Lemma sin_lip a b : Rabs (sin a - sin b) <= Rabs (a - b).
Proof.
  destruct (MVT_abs sin cos b a) as (c & E & _). { intros c _. apply derivable_pt_lim_sin. } rewrite E. assert (B := COS_bound c). assert (K : Rabs (cos c) <= 1) by (apply Rabs_le; lra). assert (P := Rabs_pos (a - b)). nra.
Qed.
Lemma sqrt_near a b : 0 <= a -> 0 <= b -> Rabs (sqrt a - sqrt b) <= sqrt (Rabs (a - b)).
Proof. intros Ha Hb. assert (A1 := sqrt_diff a b). assert (A2 := sqrt_diff b a). rewrite (Rabs_minus_sym b a) in A2. apply Rabs_le. lra. Qed.
Lemma sqrt_far a b s : 0 < s -> 0 <= a -> 0 <= b -> s <= sqrt b -> Rabs (sqrt a - sqrt b) <= Rabs (a - b) / s.
Proof.
  intros Hs Ha Hb Sb. assert (Qa := sqrt_pos a). assert (Qb := sqrt_pos b). assert (Ea := sqrt_sqrt a Ha). assert (Eb := sqrt_sqrt b Hb). apply (Rmult_le_reg_r s); [exact Hs|]. replace (Rabs (a - b) / s * s) with (Rabs (a - b)) by (field; lra).
  assert (E : a - b = (sqrt a - sqrt b) * (sqrt a + sqrt b)) by (transitivity (sqrt a * sqrt a - sqrt b * sqrt b); [rewrite Ea, Eb; reflexivity|ring]).
  rewrite E, Rabs_mult, (Rabs_pos_eq (sqrt a + sqrt b)) by lra. apply Rmult_le_compat_l; [apply Rabs_pos|lra].
Qed.
Lemma after2 u : 0 <= u <= 1 / 4 -> after u 2 <= 4 * u.
Proof.
  intros Hu. unfold after. assert (P : 0 < (1 - u) ^ 2) by (apply pow_lt; lra). apply (Rmult_le_reg_r ((1 - u) ^ 2)); [exact P|]. rewrite Rmult_minus_distr_r, Rinv_l, Rmult_1_l by lra. nra.
Qed.
Lemma after5 u : 0 <= u <= 1 / 4 -> after u 5 <= 13 * u.
Proof.
  intros Hu. unfold after. assert (P : 0 < (1 - u) ^ 5) by (apply pow_lt; lra). apply (Rmult_le_reg_r ((1 - u) ^ 5)); [exact P|]. rewrite Rmult_minus_distr_r, Rinv_l, Rmult_1_l by lra.
  assert (0 <= u * u <= u / 4) by nra. assert (0 <= u * u * u <= u / 16) by nra. nra.
Qed.

Section Rounding.
Context (A : arith) (u : R) (HA : accurate u A) (lib : library) (HL : accurate_lib u lib).
Let rel := rel u. Let close := Props_Float.close u.
Lemma u_range : 0 <= u <= 1 / 4. Proof. exact (proj1 HA). Qed.
Lemma radius_rel v : rel 4 (fl_radius A v) (vnorm v).
Proof.
  destruct v as [[x y] z]. rewrite vnorm_xyz. unfold fl_radius. apply (rel_rnd A u HA). apply (rel_sqrt A u HA); [assert (P1 := pow2_ge_0 x); assert (P2 := pow2_ge_0 y); assert (P3 := pow2_ge_0 z); lra|].
  assert (SQ : forall t, rel 1 (rnd A (t * t)) (t ^ 2)) by (intros t; replace (t ^ 2) with (t * t) by ring; apply (rel_rnd0 A u HA)).
  apply (rel_rnd A u HA). apply (rel_plus A u HA); [assert (P1 := pow2_ge_0 x); assert (P2 := pow2_ge_0 y); lra|apply pow2_ge_0| |apply (rel_mono A u HA 1); [lia|apply SQ]].
  apply (rel_rnd A u HA). apply (rel_plus A u HA); [apply pow2_ge_0|apply pow2_ge_0|apply SQ|apply SQ].
Qed.
Lemma radius_zero v : fl_radius A v <> 0 -> vnorm v <> 0.
Proof. intros H E. apply H. destruct (radius_rel v) as (t & Et & _). rewrite Et, E. ring. Qed.
Lemma vnorm_pos' v : vnorm v <> 0 -> 0 < vnorm v.
Proof. destruct v as [[x y] z]. intros H. assert (P := sqrt_pos (x ^ 2 + y ^ 2 + z ^ 2)). rewrite <- vnorm_xyz in P. lra. Qed.
Lemma cosine_near v : vnorm v <> 0 -> Rabs (fl_cosine A v - snd v / vnorm v) <= 13 * u.
Proof.
  intros Hn. assert (R4 := radius_rel v). assert (Hp := vnorm_pos' v Hn). assert (K : rel 5 (fl_cosine A v) (snd v / vnorm v)).
  { destruct v as [[x y] z]. unfold fl_cosine. cbn [snd]. apply (rel_rnd A u HA). apply (rel_div A u HA 0 4); [exact Hn|apply (rel_refl A u HA)|exact R4]. }
  apply (close_rel A u HA) in K. destruct K as [_ K]. apply Rle_trans with (1 := K). change (/ (1 - u) ^ 5 - 1) with (after u 5). assert (B : Rabs (snd v / vnorm v) <= 1).
  { unfold Rdiv. rewrite Rabs_mult, Rabs_inv, (Rabs_pos_eq (vnorm v)) by lra. apply (Rmult_le_reg_r (vnorm v)); [exact Hp|]. rewrite Rmult_assoc, Rinv_l, Rmult_1_r, Rmult_1_l by lra. destruct v as [[x y] z]. rewrite vnorm_xyz. cbn [snd]. rewrite <- sqrt_Rsqr_abs. apply sqrt_le_1_alt. unfold Rsqr. assert (P1 := pow2_ge_0 x). assert (P2 := pow2_ge_0 y). nra. }
  assert (A5 := after5 u u_range). assert (P := Rabs_pos (snd v / vnorm v)). assert (0 <= u) by apply u_range. nra.
Qed.
(* the unit vectors at the computed and at the exact angles *)
Definition unit_at (th ph : R) : vec := (sin th * cos ph, sin th * sin ph, cos th).
Definition fl_dir (v : vec) : vec := unit_at (l_acos lib (fl_cosine A v)) (fl_azimuth A lib v).
Definition dir (v : vec) : vec := unit_at (acos (snd v / vnorm v)) (arctan2 (snd (fst v)) (fst (fst v))).
Lemma arctan2_range y x : Rabs (arctan2 y x) <= PI.
Proof.
  unfold arctan2. cbv zeta. assert (HP := PI_RGT_0). assert (B := acos_bound (x / sqrt (x ^ 2 + y ^ 2))). destruct (Req_EM_T _ 0); [rewrite Rabs_R0; lra|]. destruct (Rle_dec 0 y); [rewrite Rabs_pos_eq; lra|rewrite Rabs_Ropp, Rabs_pos_eq; lra].
Qed.
Lemma azimuth_near v : exists k : Z, Rabs (fl_azimuth A lib v - (arctan2 (snd (fst v)) (fst (fst v)) + 2 * IZR k * PI)) <= 60 * u.
Proof.
  destruct v as [[x y] z]. unfold fl_azimuth. cbn [fst snd]. cbv zeta. set (a := arctan2 y x). set (b := l_atan2 lib y x). assert (HU := u_range). assert (P4 := PI_4). assert (P0 := PI_RGT_0).
  assert (EA : Rabs (b - a) <= 8 * u). { apply Rle_trans with (1 := proj1 (proj2 HL) y x). fold a. assert (B := arctan2_range y x). fold a in B. assert (P := Rabs_pos a). nra. }
  destruct (Rlt_dec b 0) as [N|N].
  - exists 1%Z. assert (RT : rel 2 (rnd A (2 * rnd A PI)) (2 * PI)). { apply (rel_rnd A u HA). change 1%nat with (0 + 1)%nat. apply (rel_mult A u HA); [apply (rel_refl A u HA)|apply (rel_rnd0 A u HA)]. }
    apply (close_rel A u HA) in RT. destruct RT as [_ RT]. change (/ (1 - u) ^ 2 - 1) with (after u 2) in RT. rewrite (Rabs_pos_eq (2 * PI)) in RT by lra. assert (A2 := after2 u HU). set (tau := rnd A (2 * rnd A PI)) in *.
   
    assert (ET : Rabs (tau - 2 * PI) <= 32 * u) by (apply Rle_trans with (1 := RT); nra).
    assert (RR := proj1 (proj2 HA) (b + tau)). assert (BA := arctan2_range y x). fold a in BA. apply Rabs_le_between in BA. apply Rabs_le_between in EA. apply Rabs_le_between in ET.
    assert (BT : Rabs (b + tau) <= 17) by (apply Rabs_le; lra).
    assert (RR2 : Rabs (rnd A (b + tau) - (b + tau)) <= 17 * u) by nra. apply Rabs_le_between in RR2. apply Rabs_le. lra.
  - exists 0%Z. replace (a + 2 * 0 * PI) with a by ring. lra.
Qed.

(* the polar angle: with c the computed and c0 the exact cosine *)
Lemma polar_near v g : vnorm v <> 0 -> -1 <= fl_cosine A v <= 1 ->
  Rabs (sqrt (1 - fl_cosine A v ^ 2) - sqrt (1 - (snd v / vnorm v) ^ 2)) <= g ->
  Rabs (sin (l_acos lib (fl_cosine A v)) - sin (acos (snd v / vnorm v))) <= g + 8 * u /\
  Rabs (cos (l_acos lib (fl_cosine A v)) - cos (acos (snd v / vnorm v))) <= 21 * u.
Proof.
  intros Hn Hc Hg. assert (CN := cosine_near v Hn). assert (HU := u_range). destruct (proj1 HL _ Hc) as [RG EA]. set (c := fl_cosine A v) in *. set (c0 := snd v / vnorm v) in *.
  assert (C0 : -1 <= c0 <= 1).
  { assert (Hp := vnorm_pos' v Hn). unfold c0. destruct v as [[x y] z]. rewrite vnorm_xyz in *. cbn [snd]. set (r := sqrt (x ^ 2 + y ^ 2 + z ^ 2)) in *. assert (ER : r * r = x ^ 2 + y ^ 2 + z ^ 2) by (apply sqrt_sqrt; assert (P1 := pow2_ge_0 x); assert (P2 := pow2_ge_0 y); assert (P3 := pow2_ge_0 z); lra).
    assert (P1 := pow2_ge_0 x). assert (P2 := pow2_ge_0 y). assert (Z2 : z ^ 2 <= r * r) by lra. clear -Hp Z2. split; [apply (Rmult_le_reg_r r)|apply (Rmult_le_reg_r r)]; try exact Hp; unfold Rdiv; rewrite Rmult_assoc, Rinv_l, Rmult_1_r by lra; nra. }
  assert (AB := acos_bound c). assert (P4 := PI_4). assert (EB : Rabs (l_acos lib c - acos c) <= 8 * u) by (apply Rle_trans with (1 := EA); nra).
  assert (S1 := sin_lip (l_acos lib c) (acos c)). assert (S2 := cos_lip (l_acos lib c) (acos c)).
  rewrite cos_acos in S2 by exact Hc. rewrite cos_acos by exact C0. rewrite sin_acos in S1 by exact Hc. rewrite sin_acos by exact C0. rewrite !Rsqr_pow2 in *.
  split.
  - replace (sin (l_acos lib c) - sqrt (1 - c0 ^ 2)) with ((sin (l_acos lib c) - sqrt (1 - c ^ 2)) + (sqrt (1 - c ^ 2) - sqrt (1 - c0 ^ 2))) by ring. apply Rle_trans with (1 := Rabs_triang _ _). lra.
  - replace (cos (l_acos lib c) - c0) with ((cos (l_acos lib c) - c) + (c - c0)) by ring. apply Rle_trans with (1 := Rabs_triang _ _). lra.
Qed.
Lemma dir_near v g : vnorm v <> 0 -> -1 <= fl_cosine A v <= 1 ->
  Rabs (sqrt (1 - fl_cosine A v ^ 2) - sqrt (1 - (snd v / vnorm v) ^ 2)) <= g ->
  sd V3 (fl_dir v) (dir v) <= 2 * g + 157 * u.
Proof.
  intros Hn Hc Hg. destruct (polar_near v g Hn Hc Hg) as [E1 E2]. destruct (azimuth_near v) as (k & E3). unfold fl_dir, dir, unit_at.
  set (th := l_acos lib (fl_cosine A v)) in *. set (th0 := acos (snd v / vnorm v)) in *. set (ph := fl_azimuth A lib v) in *. set (ph0 := arctan2 (snd (fst v)) (fst (fst v))) in *.
  assert (Y1 := cos_lip ph (ph0 + 2 * IZR k * PI)). assert (Y2 := sin_lip ph (ph0 + 2 * IZR k * PI)).
  replace (ph0 + 2 * IZR k * PI) with (ph0 + 2 * PI * IZR k) in Y1, Y2, E3 by ring. rewrite cos_2kPI in Y1. rewrite sin_2kPI in Y2.
  change (Rabs (sin th * cos ph - sin th0 * cos ph0) + Rabs (sin th * sin ph - sin th0 * sin ph0) + Rabs (cos th - cos th0) <= 2 * g + 157 * u).
  assert (PR : forall a b a0 b0 e d : R, Rabs a <= 1 -> Rabs b0 <= 1 -> Rabs (a - a0) <= e -> Rabs (b - b0) <= d -> Rabs (a * b - a0 * b0) <= e + d).
  { intros a b a0 b0 e d H1 H2 H3 H4. replace (a * b - a0 * b0) with (a * (b - b0) + (a - a0) * b0) by ring. apply Rle_trans with (1 := Rabs_triang _ _). rewrite !Rabs_mult. assert (Q1 := Rabs_pos a). assert (Q2 := Rabs_pos b0). assert (Q3 := Rabs_pos (a - a0)). assert (Q4 := Rabs_pos (b - b0)). nra. }
  assert (HS : Rabs (sin th) <= 1) by (assert (B := SIN_bound th); apply Rabs_le; lra). assert (HC0 : Rabs (cos ph0) <= 1) by (assert (B := COS_bound ph0); apply Rabs_le; lra). assert (HS0 : Rabs (sin ph0) <= 1) by (assert (B := SIN_bound ph0); apply Rabs_le; lra).
  assert (X1 := PR _ _ _ _ _ _ HS HC0 E1 (Rle_trans _ _ _ Y1 E3)). assert (X2 := PR _ _ _ _ _ _ HS HS0 E1 (Rle_trans _ _ _ Y2 E3)). lra.
Qed.
Lemma squares_near v : vnorm v <> 0 -> -1 <= fl_cosine A v <= 1 -> Rabs (snd v / vnorm v) <= 1 -> Rabs ((1 - fl_cosine A v ^ 2) - (1 - (snd v / vnorm v) ^ 2)) <= 26 * u.
Proof.
  intros Hn Hc H0. assert (CN := cosine_near v Hn). assert (HU := u_range). set (c := fl_cosine A v) in *. set (c0 := snd v / vnorm v) in *. replace (1 - c ^ 2 - (1 - c0 ^ 2)) with ((c - c0) * - (c + c0)) by ring. rewrite Rabs_mult, Rabs_Ropp.
  assert (K : Rabs (c + c0) <= 2) by (apply Rle_trans with (1 := Rabs_triang _ _); assert (Rabs c <= 1) by (apply Rabs_le; lra); lra). assert (P1 := Rabs_pos (c - c0)). assert (P2 := Rabs_pos (c + c0)). nra.
Qed.
Lemma cosine_le1 v : vnorm v <> 0 -> Rabs (snd v / vnorm v) <= 1.
Proof.
  intros Hn. assert (Hp := vnorm_pos' v Hn). destruct v as [[x y] z]. rewrite vnorm_xyz in *. cbn [snd]. set (r := sqrt (x ^ 2 + y ^ 2 + z ^ 2)) in *. assert (ER : r * r = x ^ 2 + y ^ 2 + z ^ 2) by (apply sqrt_sqrt; assert (P1 := pow2_ge_0 x); assert (P2 := pow2_ge_0 y); assert (P3 := pow2_ge_0 z); lra).
  assert (P1 := pow2_ge_0 x). assert (P2 := pow2_ge_0 y). assert (Z2 : z ^ 2 <= r * r) by lra. clear -Hp Z2. apply Rabs_le. split; [apply (Rmult_le_reg_r r)|apply (Rmult_le_reg_r r)]; try exact Hp; unfold Rdiv; rewrite Rmult_assoc, Rinv_l, Rmult_1_r by lra; nra.
Qed.
(* always at most of the order of sqrt u *)
Lemma dir_any v : vnorm v <> 0 -> -1 <= fl_cosine A v <= 1 -> sd V3 (fl_dir v) (dir v) <= 169 * sqrt u.
Proof.
  intros Hn Hc. assert (HU := u_range). assert (C1 := cosine_le1 v Hn). assert (SN := squares_near v Hn Hc C1).
  assert (G : Rabs (sqrt (1 - fl_cosine A v ^ 2) - sqrt (1 - (snd v / vnorm v) ^ 2)) <= 6 * sqrt u).
  { apply Rle_trans with (sqrt (Rabs ((1 - fl_cosine A v ^ 2) - (1 - (snd v / vnorm v) ^ 2)))).
    - apply sqrt_near; [|apply Rabs_le_between in C1]; nra.
    - apply Rle_trans with (sqrt (26 * u)); [now apply sqrt_le_1_alt|]. rewrite <- (sqrt_Rsqr 6) by lra. rewrite <- sqrt_mult; [apply sqrt_le_1_alt; unfold Rsqr; lra|unfold Rsqr; lra|lra]. }
  apply Rle_trans with (1 := dir_near v _ Hn Hc G). assert (US : u <= sqrt u). { assert (E := sqrt_sqrt u (proj1 HU)). assert (P := sqrt_pos u). assert (sqrt u <= 1) by (rewrite <- sqrt_1; apply sqrt_le_1_alt; lra). nra. } lra.
Qed.
(* and of the order of u/s when the point is away from the axis *)
Lemma dir_off v s : 0 < s <= 1 -> vnorm v <> 0 -> -1 <= fl_cosine A v <= 1 -> (let '(x, y, z) := v in s * vnorm (x, y, z) <= sqrt (x ^ 2 + y ^ 2)) -> sd V3 (fl_dir v) (dir v) <= 209 * (u / s).
Proof.
  intros Hs Hn Hc Off. assert (HU := u_range). assert (C1 := cosine_le1 v Hn). assert (SN := squares_near v Hn Hc C1). assert (Hp := vnorm_pos' v Hn).
  assert (LOW : s <= sqrt (1 - (snd v / vnorm v) ^ 2)).
  { destruct v as [[x y] z]. cbn [snd]. assert (P1 := pow2_ge_0 x). assert (P2 := pow2_ge_0 y). assert (P3 := pow2_ge_0 z). assert (ER : vnorm (x, y, z) * vnorm (x, y, z) = x ^ 2 + y ^ 2 + z ^ 2) by (rewrite vnorm_xyz; apply sqrt_sqrt; lra). set (r := vnorm (x, y, z)) in *. clearbody r.
    replace (1 - (z / r) ^ 2) with ((x ^ 2 + y ^ 2) / (r * r)) by (replace (x ^ 2 + y ^ 2) with (r * r - z ^ 2) by lra; field; lra). rewrite sqrt_div by nra. rewrite sqrt_square by lra. apply (Rmult_le_reg_r r); [exact Hp|]. unfold Rdiv. rewrite Rmult_assoc, Rinv_l, Rmult_1_r by lra. exact Off. }
  assert (G : Rabs (sqrt (1 - fl_cosine A v ^ 2) - sqrt (1 - (snd v / vnorm v) ^ 2)) <= 26 * u / s).
  { apply Rle_trans with (Rabs ((1 - fl_cosine A v ^ 2) - (1 - (snd v / vnorm v) ^ 2)) / s).
    - apply sqrt_far; [lra| | |exact LOW]; [|apply Rabs_le_between in C1]; nra.
    - unfold Rdiv. apply Rmult_le_compat_r; [left; apply Rinv_0_lt_compat; lra|exact SN]. }
  apply Rle_trans with (1 := dir_near v _ Hn Hc G). assert (US : u <= u / s) by (apply (Rmult_le_reg_r s); [lra|]; unfold Rdiv; rewrite Rmult_assoc, Rinv_l by lra; nra). unfold Rdiv in *. lra.
Qed.

(* the harmonic at the computed angles *)
Lemma unit_size th ph : sn V3 (unit_at th ph) <= 3.
Proof.
  change (Rabs (sin th * cos ph) + Rabs (sin th * sin ph) + Rabs (cos th) <= 3). assert (B1 := SIN_bound th). assert (B2 := COS_bound th). assert (B3 := SIN_bound ph). assert (B4 := COS_bound ph).
  assert (Rabs (sin th) <= 1) by (apply Rabs_le; lra). assert (Rabs (cos th) <= 1) by (apply Rabs_le; lra). assert (Rabs (sin ph) <= 1) by (apply Rabs_le; lra). assert (Rabs (cos ph) <= 1) by (apply Rabs_le; lra). rewrite !Rabs_mult.
  assert (P1 := Rabs_pos (sin th)). assert (P2 := Rabs_pos (cos ph)). assert (P3 := Rabs_pos (sin ph)). nra.
Qed.
Lemma sph_at l m th ph : (Z.abs m <= l)%Z -> 0 <= th <= PI -> Cconj (sph_harm m l ph th) = rsolid l m (unit_at th ph).
Proof.
  intros Hm Ht. assert (E := sph_harm_solid l m 1 th ph Hm Ht). rewrite pow1, !Rmult_1_l, Cmult_1_l in E. exact E.
Qed.
Lemma dir_exact l m v : (Z.abs m <= l)%Z -> vnorm v <> 0 -> (RtoC (vnorm v ^ Z.to_nat l) * rsolid l m (dir v))%C = rsolid l m v.
Proof.
  intros Hm Hn. destruct v as [[x y] z]. unfold dir. cbn [fst snd]. rewrite vnorm_xyz in *. destruct (spherical_of_cartesian x y z Hn) as (Ht & Ex & Ey & Ez). set (r := sqrt _) in *. destruct (pymod_2PI (arctan2 y x)) as [PC PS]. rewrite PC in Ex. rewrite PS in Ey.
  rewrite <- (sph_at l m _ _ Hm Ht). rewrite (sph_harm_solid l m r _ _ Hm Ht). unfold rsolid. rewrite <- Ex, <- Ey, <- Ez. reflexivity.
Qed.

(* a sum in any order *)
Lemma fsum_close l x : fsum A l x -> forall k L, Forall2 (rel k) l L -> close (k + length l) x (Props_Float.tot L) (tot_abs L).
Proof.
  induction 1 as [x|l1 l2 l a b S1 IH1 S2 IH2 P]; intros k L H.
  - inversion H as [|? X ? ? Hy Hn]; subst. inversion Hn; subst. unfold Props_Float.tot, tot_abs, lsr. cbn [fold_right length]. rewrite !Rplus_0_r. apply (close_mono A u HA k); [lia|]. apply (close_rel A u HA). exact Hy.
  - destruct (Permutation_Forall2 P H) as (L' & PL & H'). apply Forall2_app_inv_l in H'. destruct H' as (L1 & L2 & H1 & H2 & ->).
    rewrite (tot_perm _ _ PL), (tot_abs_perm _ _ PL), tot_app, tot_abs_app. assert (N1 := fsum_length A _ _ S1). assert (N2 := fsum_length A _ _ S2). rewrite (Permutation_length P), app_length.
    replace (k + (length l1 + length l2))%nat with (Datatypes.S (k + (length l1 + length l2) - 1)) by lia. apply (close_rnd A u HA), (close_plus u); [apply (close_mono A u HA (k + length l1)); [lia|now apply IH1]|apply (close_mono A u HA (k + length l2)); [lia|now apply IH2]].
Qed.
Lemma fl_sum_close l x : fl_sum A l x -> forall k L, Forall2 (rel k) l L -> close (k + length l) x (Props_Float.tot L) (tot_abs L).
Proof.
  intros H k L F. destruct l as [|y l].
  - inversion F; subst. cbn [fl_sum] in H. subst x. apply (close_mono A u HA 0); [lia|]. unfold Props_Float.tot, tot_abs, lsr. cbn [fold_right]. apply close_0.
  - now apply fsum_close.
Qed.
Lemma rel_pow n k x X : rel k x X -> rel (n * k) (x ^ n) (X ^ n).
Proof. intros H. induction n as [|n IH]; [apply (rel_refl A u HA)|]. cbn [pow Nat.mul]. now apply (rel_mult A u HA). Qed.
Lemma rel_lib k x X : rel k x X -> forall y, Rabs (y - x) <= 2 * u * Rabs x -> rel (3 + k) y X.
Proof.
  intros H y Hy. apply (rel_trans A u HA 3 k y x X); [|exact H]. assert (HU := u_range). destruct (Req_dec x 0) as [->|N].
  - rewrite Rabs_R0, Rmult_0_r in Hy. exists 1. split; [|apply (fac_1 A u HA)]. rewrite Rminus_0_r in Hy. assert (P := Rabs_pos y). assert (E : Rabs y = 0) by lra. apply Rabs_eq_0 in E. lra.
  - exists (y / x). split; [field; exact N|]. assert (B : Rabs (y / x - 1) <= 2 * u). { replace (y / x - 1) with ((y - x) / x) by (field; exact N). unfold Rdiv. rewrite Rabs_mult, Rabs_inv. assert (P := Rabs_pos_lt x N). apply (Rmult_le_reg_r (Rabs x)); [exact P|]. rewrite Rmult_assoc, Rinv_l, Rmult_1_r by lra. exact Hy. }
    apply Rabs_le_between in B. set (t := y / x) in *. clearbody t. clear -B HU. assert (P : 0 < (1 - u) ^ 3) by (apply pow_lt; lra). split.
    + apply Rle_trans with (1 - 2 * u); [|lra]. assert (0 <= u * u <= u / 4) by nra. assert (0 <= u * u * u) by nra. nra.
    + apply Rle_trans with (1 + 2 * u); [lra|]. apply (Rmult_le_reg_r ((1 - u) ^ 3)); [exact P|]. rewrite Rinv_l by lra. assert (0 <= u * u <= u / 4) by nra. assert (0 <= u * u * u <= u * u / 4) by nra. nra.
Qed.
Lemma rnd_0 : rnd A 0 = 0.
Proof. assert (E := proj1 (proj2 HA) 0). rewrite Rminus_0_r, Rabs_R0, Rmult_0_r in E. assert (P := Rabs_pos (rnd A 0)). assert (Z : Rabs (rnd A 0) = 0) by lra. now apply Rabs_eq_0. Qed.
Lemma scale_rel l p : rel (4 + 4 * Z.to_nat l) (fl_scale A lib l p) (pm p * vnorm (pp p) ^ Z.to_nat l).
Proof.
  unfold fl_scale. apply (rel_rnd A u HA _ (pm p * l_pow lib (fl_radius A (pp p)) (Z.to_nat l)) (pm p * vnorm (pp p) ^ Z.to_nat l)). apply (rel_mult A u HA 0 (3 + 4 * Z.to_nat l)); [apply (rel_refl A u HA)|]. apply (rel_lib _ (fl_radius A (pp p) ^ Z.to_nat l)).
  - rewrite Nat.mul_comm. apply rel_pow, radius_rel.
  - apply (proj2 (proj2 HL)).
Qed.
Lemma term_re l m p : rel (6 + 4 * Z.to_nat l) (fst (fl_term A lib l m p)) (pm p * vnorm (pp p) ^ Z.to_nat l * fst (fl_harmonic A lib l m p)).
Proof.
  unfold fl_term. cbn [fst]. rewrite Rmult_0_l, rnd_0, Rminus_0_r. apply (rel_rnd A u HA (5 + 4 * Z.to_nat l)), (rel_rnd A u HA (4 + 4 * Z.to_nat l)). rewrite <- (Nat.add_0_r (4 + 4 * Z.to_nat l)). apply (rel_mult A u HA (4 + 4 * Z.to_nat l) 0); [apply scale_rel|apply (rel_refl A u HA)].
Qed.
Lemma term_im l m p : rel (6 + 4 * Z.to_nat l) (snd (fl_term A lib l m p)) (pm p * vnorm (pp p) ^ Z.to_nat l * snd (fl_harmonic A lib l m p)).
Proof.
  unfold fl_term. cbn [snd]. rewrite Rmult_0_l, rnd_0, Rplus_0_r. apply (rel_rnd A u HA (5 + 4 * Z.to_nat l)), (rel_rnd A u HA (4 + 4 * Z.to_nat l)). rewrite <- (Nat.add_0_r (4 + 4 * Z.to_nat l)). apply (rel_mult A u HA (4 + 4 * Z.to_nat l) 0); [apply scale_rel|apply (rel_refl A u HA)].
Qed.

Lemma weighted (X f g : pt -> R) (e B : R) pts : (forall p, In p pts -> Rabs (f p) <= B /\ Rabs (f p - g p) <= e) ->
  tot_abs (map (fun p => X p * f p) pts) <= B * lsr (fun p => Rabs (X p)) pts /\
  Rabs (Props_Float.tot (map (fun p => X p * f p) pts) - lsr (fun p => X p * g p) pts) <= e * lsr (fun p => Rabs (X p)) pts.
Proof.
  intros H. unfold tot_abs, Props_Float.tot, lsr. induction pts as [|p pts IH]; cbn [map fold_right].
  - rewrite !Rmult_0_r, Rminus_0_r, Rabs_R0. lra.
  - destruct IH as [I1 I2]. { intros q Hq. apply H. now right. } destruct (H p (or_introl eq_refl)) as [H1 H2]. split.
    + rewrite Rabs_mult. assert (P := Rabs_pos (X p)). nra.
    + match goal with |- Rabs (X p * f p + ?a - (X p * g p + ?b)) <= _ => replace (X p * f p + a - (X p * g p + b)) with (X p * (f p - g p) + (a - b)) by ring end. apply Rle_trans with (1 := Rabs_triang _ _). rewrite Rabs_mult. assert (P := Rabs_pos (X p)). nra.
Qed.
Lemma parts_le (z : C) : Cmod z <= Rabs (fst z) + Rabs (snd z).
Proof.
  unfold Cmod. assert (P1 := Rabs_pos (fst z)). assert (P2 := Rabs_pos (snd z)). rewrite <- (sqrt_square (Rabs (fst z) + Rabs (snd z))) by lra. apply sqrt_le_1_alt. assert (E1 := pow2_abs (fst z)). assert (E2 := pow2_abs (snd z)). nra.
Qed.
Lemma cmod_conj5 (z : C) : Cmod (Cconj z) = Cmod z.
Proof. unfold Cmod, Cconj. cbn [fst snd]. f_equal. ring. Qed.
Lemma le_parts (z : C) : Rabs (fst z) <= Cmod z /\ Rabs (snd z) <= Cmod z.
Proof. assert (H := Rmax_Cmod z). assert (A1 := Rmax_l (Rabs (fst z)) (Rabs (snd z))). assert (A2 := Rmax_r (Rabs (fst z)) (Rabs (snd z))). lra. Qed.
Lemma size_pos l pts : 0 <= moment_size l pts.
Proof. unfold moment_size, lsr. induction pts as [|p pts IH]; cbn [fold_right]; [lra|]. assert (P := Rabs_pos (pm p)). assert (Q : 0 <= vnorm (pp p) ^ Z.to_nat l) by (apply pow_le; destruct (pp p) as [[x y] z]; rewrite vnorm_xyz; apply sqrt_pos). nra. Qed.
Lemma size_abs l pts : lsr (fun p => Rabs (pm p * vnorm (pp p) ^ Z.to_nat l)) pts = moment_size l pts.
Proof. unfold moment_size, lsr. induction pts as [|p pts IH]; cbn [fold_right]; [reflexivity|]. rewrite IH, Rabs_mult, (Rabs_pos_eq (vnorm (pp p) ^ Z.to_nat l)); [reflexivity|]. apply pow_le. destruct (pp p) as [[x y] z]. rewrite vnorm_xyz. apply sqrt_pos. Qed.
Lemma inner_parts l m pts : (Z.abs m <= l)%Z -> (forall p, In p pts -> vnorm (pp p) <> 0) ->
  fst (inner_moment pts l m) = lsr (fun p => pm p * vnorm (pp p) ^ Z.to_nat l * fst (rsolid l m (dir (pp p)))) pts /\
  snd (inner_moment pts l m) = lsr (fun p => pm p * vnorm (pp p) ^ Z.to_nat l * snd (rsolid l m (dir (pp p)))) pts.
Proof.
  intros Hm H. unfold inner_moment, lsum, lsr. induction pts as [|p pts IH]; cbn [fold_right]; [split; reflexivity|].
  destruct IH as [I1 I2]. { intros q Hq. apply H. now right. } assert (E := dir_exact l m (pp p) Hm (H p (or_introl eq_refl))). rewrite <- E, <- I1, <- I2. cbn [fst snd Cmult Cplus RtoC]. split; ring.
Qed.
Lemma qmoment_core l m K M d eta pts q : (Z.abs m <= l)%Z -> (1 <= l)%Z -> 0 <= K ->
  (forall v : V3, sn V3 v <= 3 -> Cmod (rsolid l m v) <= M) ->
  (forall v w : V3, sn V3 v <= 3 -> sn V3 w <= 3 -> Cmod (rsolid l m v - rsolid l m w)%C <= K * sd V3 v w) ->
  sph_within eta lib l m -> fl_qmoment A lib l m pts q -> (forall p, In p pts -> sd V3 (fl_dir (pp p)) (dir (pp p)) <= d) ->
  Cmod (q - inner_moment pts l m)%C <= 2 * ((M + eta) * after u (6 + 4 * Z.to_nat l + length pts) + eta + K * d) * moment_size l pts.
Proof.
  intros Hm Hl HK HM HLip Hs HQ Hd. unfold fl_qmoment in HQ. destruct (Z.eqb_spec l 0) as [|_]; [lia|]. destruct HQ as (HC & Q1 & Q2).
  assert (HN : forall p, In p pts -> vnorm (pp p) <> 0) by (intros p Hp; apply radius_zero; now apply HC).
  set (h := fl_harmonic A lib l m).
  assert (HH : forall p, In p pts -> Cmod (h p) <= M + eta /\ Cmod (h p - rsolid l m (dir (pp p)))%C <= eta + K * d).
  { intros p Hp. destruct (HC p Hp) as [_ Hc]. assert (Ht := proj1 (proj1 HL _ Hc)). assert (E1 := Hs (fl_azimuth A lib (pp p)) _ Ht). assert (E2 := sph_at l m _ (fl_azimuth A lib (pp p)) Hm Ht). fold (fl_dir (pp p)) in E2.
    assert (E3 : Cmod (h p - rsolid l m (fl_dir (pp p)))%C <= eta). { rewrite <- E2. unfold h, fl_harmonic. replace (Cconj (l_sph lib m l (fl_azimuth A lib (pp p)) (l_acos lib (fl_cosine A (pp p)))) - Cconj (sph_harm m l (fl_azimuth A lib (pp p)) (l_acos lib (fl_cosine A (pp p)))))%C with (Cconj (l_sph lib m l (fl_azimuth A lib (pp p)) (l_acos lib (fl_cosine A (pp p))) - sph_harm m l (fl_azimuth A lib (pp p)) (l_acos lib (fl_cosine A (pp p)))))%C by (apply injective_projections; cbn; ring). rewrite cmod_conj5. exact E1. }
    assert (U1 := unit_size (l_acos lib (fl_cosine A (pp p))) (fl_azimuth A lib (pp p))). assert (U2 := unit_size (acos (snd (pp p) / vnorm (pp p))) (arctan2 (snd (fst (pp p))) (fst (fst (pp p))))). change (sn V3 (fl_dir (pp p)) <= 3) in U1. change (sn V3 (dir (pp p)) <= 3) in U2.
    assert (L1 := HLip _ _ U1 U2). assert (L2 := HM _ U1). assert (D1 := Hd p Hp). split.
    - replace (h p) with ((h p - rsolid l m (fl_dir (pp p))) + rsolid l m (fl_dir (pp p)))%C by ring. apply Rle_trans with (1 := Cmod_triangle _ _). lra.
    - replace (h p - rsolid l m (dir (pp p)))%C with ((h p - rsolid l m (fl_dir (pp p))) + (rsolid l m (fl_dir (pp p)) - rsolid l m (dir (pp p))))%C by ring. apply Rle_trans with (1 := Cmod_triangle _ _). assert (K * sd V3 (fl_dir (pp p)) (dir (pp p)) <= K * d) by (now apply Rmult_le_compat_l). lra. }
  set (X := fun p => pm p * vnorm (pp p) ^ Z.to_nat l). set (n := (6 + 4 * Z.to_nat l + length pts)%nat).
  assert (AP : 0 <= after u n) by (unfold after; assert (G := ihk_ge1 A u HA n); lra).
  destruct (inner_parts l m pts Hm HN) as [I1 I2].
  destruct (weighted X (fun p => fst (h p)) (fun p => fst (rsolid l m (dir (pp p)))) (eta + K * d) (M + eta) pts) as [W1 W2].
  { intros p Hp. destruct (HH p Hp) as [H1 H2]. split; [apply Rle_trans with (2 := H1), le_parts|]. apply Rle_trans with (2 := H2). exact (proj1 (le_parts (h p - rsolid l m (dir (pp p)))%C)). }
  destruct (weighted X (fun p => snd (h p)) (fun p => snd (rsolid l m (dir (pp p)))) (eta + K * d) (M + eta) pts) as [W3 W4].
  { intros p Hp. destruct (HH p Hp) as [H1 H2]. split; [apply Rle_trans with (2 := H1), le_parts|]. apply Rle_trans with (2 := H2). exact (proj2 (le_parts (h p - rsolid l m (dir (pp p)))%C)). }
  assert (C1 := fl_sum_close _ _ Q1 (6 + 4 * Z.to_nat l)%nat (map (fun p => X p * fst (h p)) pts)). assert (C2 := fl_sum_close _ _ Q2 (6 + 4 * Z.to_nat l)%nat (map (fun p => X p * snd (h p)) pts)).
  rewrite map_length in C1, C2. fold n in C1, C2.
  destruct C1 as [_ C1]. { clear -HA HL h X rel. induction pts as [|p pts IH]; cbn [map]; [apply Forall2_nil|]. apply Forall2_cons; [apply term_re|exact IH]. }
  destruct C2 as [_ C2]. { clear -HA HL h X rel. induction pts as [|p pts IH]; cbn [map]; [apply Forall2_nil|]. apply Forall2_cons; [apply term_im|exact IH]. }
  change (/ (1 - u) ^ n - 1) with (after u n) in C1, C2.
  unfold X in W1, W2, W3, W4. rewrite size_abs in W1, W2, W3, W4. rewrite <- I1 in W2. rewrite <- I2 in W4. fold X in W1, W2, W3, W4. change (fun p => X p * fst (h p)) with (fun p => X p * fst (h p)) in C1. 
  set (T1 := map (fun p => X p * fst (h p)) pts) in *. set (T2 := map (fun p => X p * snd (h p)) pts) in *.
  change (map (fun p => pm p * vnorm (pp p) ^ Z.to_nat l * fst (h p)) pts) with T1 in W1, W2. change (map (fun p => pm p * vnorm (pp p) ^ Z.to_nat l * snd (h p)) pts) with T2 in W3, W4.
  apply Rle_trans with (1 := parts_le _). set (Q := inner_moment pts l m) in *. change (Rabs (fst q - fst Q) + Rabs (snd q - snd Q) <= 2 * ((M + eta) * after u n + eta + K * d) * moment_size l pts).
  assert (Y1 : after u n * tot_abs T1 <= after u n * ((M + eta) * moment_size l pts)) by (now apply Rmult_le_compat_l). assert (Y2 : after u n * tot_abs T2 <= after u n * ((M + eta) * moment_size l pts)) by (now apply Rmult_le_compat_l).
  assert (Z1 : Rabs (fst q - fst Q) <= after u n * ((M + eta) * moment_size l pts) + (eta + K * d) * moment_size l pts).
  { replace (fst q - fst Q) with ((fst q - Props_Float.tot T1) + (Props_Float.tot T1 - fst Q)) by ring. apply Rle_trans with (1 := Rabs_triang _ _). lra. }
  assert (Z2 : Rabs (snd q - snd Q) <= after u n * ((M + eta) * moment_size l pts) + (eta + K * d) * moment_size l pts).
  { replace (snd q - snd Q) with ((snd q - Props_Float.tot T2) + (Props_Float.tot T2 - snd Q)) by ring. apply Rle_trans with (1 := Rabs_triang _ _). lra. }
  lra.
Qed.
(* the monopole, :35 *)
Lemma monopole_core m pts q : fl_qmoment A lib 0 m pts q -> Cmod (q - inner_moment pts 0 0)%C <= after u (4 + length pts) * moment_size 0 pts.
Proof.
  unfold fl_qmoment. cbn [Z.eqb]. intros [Q1 Q2]. assert (P0 := PI_RGT_0).
  assert (RM : forall p, rel 4 (fl_monopole A p) (pm p * / sqrt (4 * PI))).
  { intros p. unfold fl_monopole. apply (rel_rnd A u HA). change (pm p * / sqrt (4 * PI)) with (pm p / sqrt (4 * PI)). apply (rel_div A u HA 0 3); [apply Rgt_not_eq, sqrt_lt_R0; lra|apply (rel_refl A u HA)|]. apply (rel_rnd A u HA). apply (rel_sqrt A u HA); [lra|]. apply (rel_rnd A u HA). apply (rel_mult A u HA 0 1); [apply (rel_refl A u HA)|apply (rel_rnd0 A u HA)]. }
  assert (C1 := fl_sum_close _ _ Q1 4%nat (map (fun p => pm p * / sqrt (4 * PI)) pts)). rewrite map_length in C1.
  destruct C1 as [_ C1]. { clear -RM. induction pts as [|p pts IH]; cbn [map]; [apply Forall2_nil|]. apply Forall2_cons; [apply RM|exact IH]. }
  change (/ (1 - u) ^ (4 + length pts) - 1) with (after u (4 + length pts)) in C1. rewrite inner00.
  assert (ET : Props_Float.tot (map (fun p => pm p * / sqrt (4 * PI)) pts) = total_mass pts / sqrt (4 * PI)).
  { clear. unfold Props_Float.tot, total_mass, lsr. induction pts as [|p pts IH]; cbn [map fold_right]; [unfold Rdiv; ring|]. rewrite IH. unfold Rdiv. ring. }
  rewrite ET in C1. apply Rle_trans with (1 := parts_le _). cbn [Cminus Cplus Copp RtoC fst snd]. rewrite Q2, Ropp_0, Rplus_0_r, Rabs_R0, Rplus_0_r. change (fst q + - (total_mass pts / sqrt (4 * PI))) with (fst q - total_mass pts / sqrt (4 * PI)). apply Rle_trans with (1 := C1).
  apply Rmult_le_compat_l; [unfold after; assert (G := ihk_ge1 A u HA (4 + length pts)); lra|].
  assert (S1 : 1 <= sqrt (4 * PI)) by (rewrite <- sqrt_1; apply sqrt_le_1_alt; assert (K := PI2_3_2); lra). assert (S2 : / sqrt (4 * PI) <= 1) by (rewrite <- Rinv_1; apply Rinv_le_contravar; lra). assert (S3 : 0 < / sqrt (4 * PI)) by (apply Rinv_0_lt_compat; lra). clear -S2 S3.
  unfold tot_abs, moment_size, lsr. induction pts as [|p pts IH]; cbn [map fold_right Z.to_nat pow]; [lra|]. rewrite Rabs_mult, (Rabs_pos_eq (/ sqrt (4 * PI))) by lra. cbn [Z.to_nat pow] in IH. assert (P := Rabs_pos (pm p)). nra.
Qed.
End Rounding.

Lemma harmonic_constants l m : exists K M, 0 <= K /\ 0 <= M /\ (forall v : V3, sn V3 v <= 3 -> Cmod (rsolid l m v) <= M) /\
  (forall v w : V3, sn V3 v <= 3 -> sn V3 w <= 3 -> Cmod (rsolid l m v - rsolid l m w)%C <= K * sd V3 v w).
Proof.
  destruct (CLL_rsolid l m) as [H1 H2]. destruct (H1 3) as (K1 & M1 & P1 & P2 & B1 & L1). destruct (H2 3) as (K2 & M2 & P3 & P4 & B2 & L2). exists (K1 + K2), (M1 + M2). split; [lra|]. split; [lra|]. split.
  - intros v Hv. apply Rle_trans with (1 := parts_le _). exact (Rplus_le_compat _ _ _ _ (B1 v Hv) (B2 v Hv)).
  - intros v w Hv Hw. apply Rle_trans with (1 := parts_le _). rewrite Rmult_plus_distr_r. exact (Rplus_le_compat _ _ _ _ (L1 v w Hv Hw) (L2 v w Hv Hw)).
Qed.

(* the moment computed in rounded arithmetic: always within a constant of the degree and order times the square root of the unit roundoff *)
Theorem C84_rounding : forall l m, (Z.abs m <= l)%Z -> exists K, 0 < K /\
  forall u A lib eta pts q, accurate u A -> accurate_lib u lib -> 0 <= eta <= 1 -> sph_within eta lib l m -> fl_qmoment A lib l m pts q ->
    exists Q, qmoment l m pts = Ok Q /\
      Cmod (q - Q)%C <= K * (sqrt u + eta + after u (6 + 4 * Z.to_nat l + length pts)) * moment_size l pts.
Proof.
  intros l m Hm. destruct (harmonic_constants l m) as (K & M & P1 & P2 & B & L). exists (2 * (M + 2 + 169 * K)). split; [lra|].
  intros u A lib eta pts q HA HL He Hs HQ. assert (HU := proj1 HA). assert (SP := size_pos l pts). assert (SU := sqrt_pos u). set (n := (6 + 4 * Z.to_nat l + length pts)%nat). assert (AP : 0 <= after u n) by (unfold after; assert (G := ihk_ge1 A u HA n); lra).
  destruct (Z.eq_dec l 0) as [->|Hl].
  - replace m with 0%Z in * by lia. exists (inner_moment pts 0 0). split. { unfold qmoment. cbn [Z.eqb]. rewrite inner00. f_equal. unfold csum, total_mass. clear. induction pts as [|p pts IH]; cbn [map fold_right lsr]; [unfold Rdiv; rewrite Rmult_0_l; reflexivity|]. cbn [lsum]. unfold lsr in IH. rewrite IH. unfold lsr. apply injective_projections; cbn; unfold Rdiv; ring. }
    apply Rle_trans with (1 := monopole_core A u HA lib 0 pts q HQ). apply Rmult_le_compat_r; [exact SP|]. assert (MO : after u (4 + length pts) <= after u n). { unfold after. assert (G := ihk_mono A u HA (4 + length pts) n ltac:(unfold n; lia)). lra. } apply Rle_trans with (1 := MO). nra.
  - assert (Hl1 : (1 <= l)%Z) by lia. exists (inner_moment pts l m).
    assert (HC : forall p, In p pts -> fl_radius A (pp p) <> 0 /\ -1 <= fl_cosine A (pp p) <= 1). { unfold fl_qmoment in HQ. destruct (Z.eqb_spec l 0) as [|_]; [lia|]. exact (proj1 HQ). }
    split. { apply C08_qmoment_single; [exact Hl1|exact Hm|]. intros p Hp AO. apply (radius_zero A u HA (pp p) (proj1 (HC p Hp))). unfold at_origin in AO; rewrite AO; apply vnorm_v0. }
    apply Rle_trans with (1 := qmoment_core A u HA lib HL l m K M (169 * sqrt u) eta pts q Hm Hl1 P1 B L Hs HQ ltac:(intros p Hp; destruct (HC p Hp) as [C1 C2]; apply (dir_any A u HA lib HL); [now apply (radius_zero A u HA)|exact C2])).
    fold n. apply Rmult_le_compat_r; [exact SP|]. assert (0 <= K * sqrt u) by nra. nra.
Qed.
Print Assumptions C84_rounding.
(* points whose distance from the z axis is at least s times that from the origin: u/s in place of the square root *)
Theorem C84_off_axis : forall l m, (Z.abs m <= l)%Z -> exists K, 0 < K /\
  forall u A lib eta s pts q, accurate u A -> accurate_lib u lib -> 0 <= eta <= 1 -> sph_within eta lib l m -> 0 < s <= 1 -> off_axis s pts -> fl_qmoment A lib l m pts q ->
    exists Q, qmoment l m pts = Ok Q /\
      Cmod (q - Q)%C <= K * (u / s + eta + after u (6 + 4 * Z.to_nat l + length pts)) * moment_size l pts.
Proof.
  intros l m Hm. destruct (harmonic_constants l m) as (K & M & P1 & P2 & B & L). exists (2 * (M + 2 + 209 * K)). split; [lra|].
  intros u A lib eta s pts q HA HL He Hs Hss Off HQ. assert (HU := proj1 HA). assert (SP := size_pos l pts). assert (SU : 0 <= u / s) by (apply Rmult_le_pos; [lra|left; apply Rinv_0_lt_compat; lra]). set (n := (6 + 4 * Z.to_nat l + length pts)%nat). assert (AP : 0 <= after u n) by (unfold after; assert (G := ihk_ge1 A u HA n); lra).
  destruct (Z.eq_dec l 0) as [->|Hl].
  - replace m with 0%Z in * by lia. exists (inner_moment pts 0 0). split. { unfold qmoment. cbn [Z.eqb]. rewrite inner00. f_equal. unfold csum, total_mass. clear. induction pts as [|p pts IH]; cbn [map fold_right lsr]; [unfold Rdiv; rewrite Rmult_0_l; reflexivity|]. cbn [lsum]. unfold lsr in IH. rewrite IH. unfold lsr. apply injective_projections; cbn; unfold Rdiv; ring. }
    apply Rle_trans with (1 := monopole_core A u HA lib 0 pts q HQ). apply Rmult_le_compat_r; [exact SP|]. assert (MO : after u (4 + length pts) <= after u n). { unfold after. assert (G := ihk_mono A u HA (4 + length pts) n ltac:(unfold n; lia)). lra. } apply Rle_trans with (1 := MO). nra.
  - assert (Hl1 : (1 <= l)%Z) by lia. exists (inner_moment pts l m).
    assert (HC : forall p, In p pts -> fl_radius A (pp p) <> 0 /\ -1 <= fl_cosine A (pp p) <= 1). { unfold fl_qmoment in HQ. destruct (Z.eqb_spec l 0) as [|_]; [lia|]. exact (proj1 HQ). }
    split. { apply C08_qmoment_single; [exact Hl1|exact Hm|]. intros p Hp AO. apply (radius_zero A u HA (pp p) (proj1 (HC p Hp))). unfold at_origin in AO; rewrite AO; apply vnorm_v0. }
    apply Rle_trans with (1 := qmoment_core A u HA lib HL l m K M (209 * (u / s)) eta pts q Hm Hl1 P1 B L Hs HQ ltac:(intros p Hp; destruct (HC p Hp) as [C1 C2]; apply (dir_off A u HA lib HL _ s Hss); [now apply (radius_zero A u HA)|exact C2|exact (Off p Hp)])).
    fold n. apply Rmult_le_compat_r; [exact SP|]. assert (0 <= K * (u / s)) by nra. nra.
Qed.
Print Assumptions C84_off_axis.

(* ---- the square root is needed: a point near the z axis, in binary64 ---- *)
Lemma rnd_one : round radix2 (FLX_exp 53) ZnearestE 1 = 1.
Proof. apply round_generic; [apply valid_rnd_N|]. change 1 with (bpow radix2 0). apply generic_format_bpow. unfold FLX_exp. lia. Qed.
Lemma rnd_bpow e : round radix2 (FLX_exp 53) ZnearestE (bpow radix2 e) = bpow radix2 e.
Proof. apply round_generic; [apply valid_rnd_N|]. apply generic_format_bpow. unfold FLX_exp. lia. Qed.
Lemma rnd_near_one x : 0 <= x < / 2 ^ 53 -> round radix2 (FLX_exp 53) ZnearestE (1 + x) = 1.
Proof.
  intros Hx. assert (VE : Valid_exp (FLX_exp 53)) by (apply FLX_exp_valid; reflexivity). assert (F1 : generic_format radix2 (FLX_exp 53) 1) by (change 1 with (bpow radix2 0); apply generic_format_bpow; unfold FLX_exp; lia).
  apply Rle_antisym.
  - apply round_N_le_midp; [exact VE|exact F1|]. rewrite succ_eq_pos by lra. assert (EU : ulp radix2 (FLX_exp 53) 1 = / IZR (2 ^ 52)) by (change 1 with (bpow radix2 0); rewrite ulp_bpow; reflexivity). rewrite EU. assert (E : 2 * / 2 ^ 53 = / IZR (2 ^ 52)) by (replace (IZR (2 ^ 52)) with (2 ^ 52) by (rewrite (pow_IZR 2 52); reflexivity); field; lra). lra.
  - rewrite <- rnd_one at 1. apply round_le; [exact VE|apply valid_rnd_N|lra].
Qed.
Lemma rsolid_11 x y z : fst (rsolid 1 1 (x, y, z)) = - nrm 1 1 * x / 2 /\ snd (rsolid 1 1 (x, y, z)) = nrm 1 1 * y / 2.
Proof.
  assert (E : solid 1 1 x y z = (- (RtoC x - Ci * RtoC y) / RtoC 2)%C).
  { unfold solid. set (A := (- (RtoC x - Ci * RtoC y) / RtoC 2)%C). set (B := ((RtoC x + Ci * RtoC y) / RtoC 2)%C). assert (T := Irreg.tri_m 1 1 A (RtoC z) B). change (1 - 1)%Z with 0%Z in T. change (1 + 1)%Z with 2%Z in T.
    assert (T0 : tri 0 0 A (RtoC z) B = RtoC 1) by apply Tri.tri_0_0. assert (T2 : tri 0 2 A (RtoC z) B = RtoC 0) by (apply Tri.tri_0; lia). rewrite T0, T2 in T. replace (tri 1 1 A (RtoC z) B) with (RtoC 1 * tri 1 1 A (RtoC z) B)%C by ring. rewrite T. ring. }
  unfold rsolid. rewrite E. split; cbn; field.
Qed.

Definition near_axis : pt := mkpt 1 (bpow radix2 (-27), 0, 1).
(* every result is 0, the exact moment is not, and the error is of the order of the square root *)
Theorem C84_lost : forall lib q, accurate_lib (/ 2 ^ 53) lib -> sph_within 0 lib 1 1 -> fl_qmoment binary64 lib 1 1 (near_axis :: nil) q ->
  q = RtoC 0 /\ exists Q, qmoment 1 1 (near_axis :: nil) = Ok Q /\ / 16 * sqrt (/ 2 ^ 53) * moment_size 1 (near_axis :: nil) <= Cmod (q - Q)%C.
Proof.
  intros lib q HL Hs HQ. set (x := bpow radix2 (-27)). assert (Hx : 0 < x) by apply bpow_gt_0. assert (Ex : x * x = bpow radix2 (-54)) by (unfold x; rewrite <- bpow_plus; reflexivity).
  assert (EX : x * x = / 2 ^ 53 / 2). { rewrite Ex. change (bpow radix2 (-54)) with (/ IZR (2 ^ 54)). replace (IZR (2 ^ 54)) with (2 ^ 54) by (rewrite (pow_IZR 2 54); reflexivity). field. }
  assert (U0 : 0 < / 2 ^ 53) by (apply Rinv_0_lt_compat, pow_lt; lra). assert (U1 : / 2 ^ 53 <= 1 / 4) by (exact (proj2 (proj1 C64_binary64_is_accurate))).
  assert (R0 : fl_radius binary64 (pp near_axis) = 1).
  { unfold fl_radius, near_axis. cbn [pp rnd binary64]. fold x. set (rd := round radix2 (FLX_exp 53) ZnearestE). assert (r1 : rd 1 = 1) by apply rnd_one. assert (r0 : rd 0 = 0) by (apply round_0, valid_rnd_N). assert (rx : rd (x * x) = x * x) by (rewrite Ex; apply rnd_bpow).
    assert (r2 : rd (1 + x * x) = 1) by (apply rnd_near_one; rewrite EX; lra). rewrite Rmult_0_l, r0, Rplus_0_r, Rmult_1_l, r1, !rx, (Rplus_comm (x * x) 1), r2, sqrt_1. exact r1. }
  assert (C0 : fl_cosine binary64 (pp near_axis) = 1). { unfold fl_cosine. rewrite R0. cbn [rnd binary64]. change (round radix2 (FLX_exp 53) ZnearestE (1 / 1) = 1). replace (1 / 1) with 1 by field. apply rnd_one. }
  assert (A0 : l_acos lib 1 = 0). { destruct (proj1 HL 1 ltac:(lra)) as [_ E]. rewrite acos_1, Rmult_0_r, Rminus_0_r in E. apply Rabs_eq_0. assert (P := Rabs_pos (l_acos lib 1)). lra. }
  assert (H0 : fl_harmonic binary64 lib 1 1 near_axis = RtoC 0).
  { unfold fl_harmonic. rewrite C0, A0. set (ph := fl_azimuth binary64 lib (pp near_axis)). assert (HP := PI_RGT_0). assert (E := Hs ph 0 ltac:(lra)). assert (Z : sph_harm 1 1 ph 0 = RtoC 0).
    { assert (V := sph_at 1 1 0 ph ltac:(lia) ltac:(lra)). unfold unit_at in V. rewrite sin_0, !Rmult_0_l in V. destruct (rsolid_11 0 0 (cos 0)) as [V1 V2]. rewrite <- V in V1, V2. cbn [Cconj fst snd] in V1, V2. apply injective_projections; cbn [RtoC fst snd]; lra. }
    rewrite Z in E. apply injective_projections; cbn [Cconj RtoC fst snd]; assert (G := le_parts (l_sph lib 1 1 ph 0 - RtoC 0)%C); cbn [Cminus Cplus Copp RtoC fst snd] in G; destruct G as [G1 G2]; assert (P1 := Rabs_pos (fst (l_sph lib 1 1 ph 0) + - 0)); assert (P2 := Rabs_pos (snd (l_sph lib 1 1 ph 0) + - 0)); [assert (Z1 : fst (l_sph lib 1 1 ph 0) + - 0 = 0) by (apply Rabs_eq_0; lra)|assert (Z1 : snd (l_sph lib 1 1 ph 0) + - 0 = 0) by (apply Rabs_eq_0; lra)]; lra. }
  assert (T0 : fl_term binary64 lib 1 1 near_axis = RtoC 0). { unfold fl_term. cbv zeta. rewrite H0. cbn [RtoC fst snd]. rewrite !Rmult_0_r. rewrite !(rnd_0 _ _ C64_binary64_is_accurate). rewrite Rminus_0_r, Rplus_0_r, !(rnd_0 _ _ C64_binary64_is_accurate). reflexivity. }
  unfold fl_qmoment in HQ. cbn [Z.eqb map fl_sum] in HQ. rewrite T0 in HQ. destruct HQ as (HC & Q1 & Q2). cbn [RtoC fst snd] in Q1, Q2.
  assert (S0 : forall z, fsum binary64 (0 :: nil) z -> z = 0).
  { intros z Hz. inversion Hz as [|l1 l2 l a b F1 F2 PP]; subst; [reflexivity|]. exfalso. assert (N1 := fsum_length _ _ _ F1). assert (N2 := fsum_length _ _ _ F2). apply Permutation_length in PP. rewrite app_length in PP. cbn [length] in PP. lia. }
  apply S0 in Q1. apply S0 in Q2. assert (EQ : q = RtoC 0) by (apply injective_projections; [exact Q1|exact Q2]). split; [exact EQ|]. exists (inner_moment (near_axis :: nil) 1 1). split.
  - apply C08_qmoment_single; [lia|lia|]. intros p [<-|[]] AO. unfold at_origin, near_axis, v0 in AO. cbn [pp] in AO. injection AO. intros. lra.
  - rewrite EQ. apply Rle_trans with (Rabs (fst (RtoC 0 - inner_moment (near_axis :: nil) 1 1)%C)); [|apply le_parts]. destruct (rsolid_11 x 0 1) as [V1 V2].
    assert (EF : fst (RtoC 0 - inner_moment (near_axis :: nil) 1 1)%C = nrm 1 1 * x / 2). { unfold inner_moment. cbn [lsum near_axis pm pp]. fold x. cbn [Cminus Cplus Copp Cmult RtoC fst snd]. rewrite V1. field. }
    rewrite EF. assert (N1 : 1 / 2 <= nrm 1 1). { unfold nrm. change (zfact (1 + 1)) with (INR 2). change (zfact (1 - 1)) with (INR 1). cbn [INR]. replace (1 / 2) with (sqrt (1 / 4)) by (replace (1 / 4) with ((1 / 2) * (1 / 2)) by field; apply sqrt_square; lra). apply sqrt_le_1_alt. assert (P4 := PI_4). assert (P0 := PI_RGT_0). apply (Rmult_le_reg_r (4 * PI)); [lra|]. match goal with |- _ <= ?a / (4 * PI) * (4 * PI) => replace (a / (4 * PI) * (4 * PI)) with a by (field; lra) end. lra. }
    assert (MS : moment_size 1 (near_axis :: nil) <= 2). { unfold moment_size, lsr. cbn [fold_right near_axis pm pp Z.to_nat Pos.to_nat Pos.iter_op pow]. fold x. rewrite vnorm_xyz, Rabs_R1. assert (SL : sqrt (x ^ 2 + 0 ^ 2 + 1 ^ 2) <= 2); [|change (Pos.to_nat 1) with 1%nat; rewrite pow_1; lra]. apply Rle_trans with (sqrt (2 * 2)); [|rewrite sqrt_square by lra; apply Rle_refl]. apply sqrt_le_1_alt. replace (x ^ 2 + 0 ^ 2 + 1 ^ 2) with (x * x + 1) by ring. rewrite EX. lra. }
    assert (SQ : sqrt (/ 2 ^ 53) <= 2 * x). { apply Rle_trans with (sqrt ((2 * x) * (2 * x))); [apply sqrt_le_1_alt; replace (2 * x * (2 * x)) with (4 * (x * x)) by ring; rewrite EX; lra|]. rewrite sqrt_square by lra. lra. }
    assert (SP := sqrt_pos (/ 2 ^ 53)). assert (ZP := size_pos 1 (near_axis :: nil)). rewrite Rabs_pos_eq by nra. apply Rle_trans with (x / 4); [|nra]. apply Rle_trans with (/ 16 * (2 * x) * 2); [|lra]. apply Rmult_le_compat; [nra|exact ZP|nra|exact MS].
Qed.
Print Assumptions C84_lost.

(* ---- results exist; in binary64 the argument of arccos never leaves [-1,1] ---- *)
Lemma fsum_exists A l : l <> nil -> exists x, fsum A l x.
Proof.
  induction l as [|y l IH]; intros N; [congruence|]. destruct l as [|z l].
  - exists y. constructor.
  - destruct IH as (x & Hx); [discriminate|]. exists (rnd A (y + x)). apply (fs_add A (y :: nil) (z :: l)); [constructor|exact Hx|apply Permutation_refl].
Qed.
Lemma fl_sum_exists A l : exists x, fl_sum A l x.
Proof. destruct l as [|y l]; [now exists 0|]. destruct (fsum_exists A (y :: l)) as (x & Hx); [discriminate|]. now exists x. Qed.
Notation rd := (round radix2 (FLX_exp 53) ZnearestE).
Notation fmt := (generic_format radix2 (FLX_exp 53)).
Lemma VE : Valid_exp (FLX_exp 53). Proof. apply FLX_exp_valid. reflexivity. Qed.
(* the square root of the rounded square, rounded, is not below the number *)
Lemma sqrt_square_ge a : 0 < a -> fmt a -> a <= rd (sqrt (rd (a * a))).
Proof.
  intros Ha Fa. assert (VV := VE). destruct (Rle_dec a (sqrt (rd (a * a)))) as [L|L].
  - rewrite <- (round_generic radix2 (FLX_exp 53) ZnearestE a Fa) at 1. now apply round_le; [exact VV|apply valid_rnd_N|].
  - set (e := (mag radix2 a - 1)%Z). assert (B1 : bpow radix2 e <= a). { assert (B := bpow_mag_le radix2 a ltac:(lra)). rewrite (Rabs_pos_eq a) in B by lra. exact B. }
    assert (B2 : a < bpow radix2 (e + 1)). { assert (B := bpow_mag_gt radix2 a). rewrite (Rabs_pos_eq a) in B by lra. unfold e. rewrite Z.sub_add. exact B. }
    destruct (Req_dec a (bpow radix2 e)) as [E|NE].
    + exfalso. apply L. rewrite E, <- bpow_plus, rnd_bpow, bpow_plus, sqrt_square; [apply Rle_refl|apply bpow_ge_0].
    + assert (B3 : a <= bpow radix2 (e + 1) - bpow radix2 (e - 52)). { assert (P := pred_bpow radix2 (FLX_exp 53) (e + 1)). unfold FLX_exp at 2 in P. replace (e + 1 - 53)%Z with (e - 52)%Z in P by lia. rewrite <- P. apply pred_ge_gt; [exact VV|exact Fa|apply generic_format_bpow; unfold FLX_exp; lia|exact B2]. }
      assert (PA : pred radix2 (FLX_exp 53) a = a - bpow radix2 (e - 52)). { rewrite pred_eq_pos by lra. unfold pred_pos. fold e. rewrite Req_bool_false by exact NE. rewrite ulp_neq_0 by lra. unfold cexp, FLX_exp. f_equal. f_equal. unfold e. lia. }
      apply round_N_ge_midp; [exact VV|exact Fa|]. rewrite PA. set (w := bpow radix2 (e - 52)) in *. assert (W0 : 0 < w) by apply bpow_gt_0. set (k := 4503599627370496).
      assert (BE : bpow radix2 e = k * w). { unfold w. replace e with (52 + (e - 52))%Z at 1 by lia. rewrite bpow_plus. f_equal. } assert (BE1 : bpow radix2 (e + 1) = 2 * k * w). { rewrite bpow_plus, BE. change (bpow radix2 1) with 2. ring. }
      rewrite BE in B1. rewrite BE1 in B3. assert (RE := round_err (a * a)). rewrite (Rabs_pos_eq (a * a)) in RE by nra. assert (EU : / 2 ^ 53 = / (2 * k)) by (unfold k; f_equal; replace 2 with (IZR 2) at 1 by reflexivity; rewrite (pow_IZR 2 53), <- mult_IZR; reflexivity). rewrite EU in RE. apply Rabs_le_between in RE. set (s := rd (a * a)) in *. clearbody s.
      assert (HK : 1 <= k) by (unfold k; lra). clearbody k w. clear -W0 HK B1 B3 RE Ha.
      assert (Q : (a - w / 2) * (a - w / 2) < s).
      { destruct RE as [RE _]. apply Rlt_le_trans with (a * a - / (2 * k) * (a * a)); [|lra]. apply (Rmult_lt_reg_l (2 * k)); [lra|]. replace (2 * k * (a * a - / (2 * k) * (a * a))) with (2 * k * (a * a) - a * a) by (field; lra). assert (0 <= (a - k * w) * (2 * k * w - w - a)) by nra. assert (w * w <= k * w * w) by nra. nra. }
      assert (M : 0 <= a - w / 2) by nra. replace ((a + (a - w)) / 2) with (a - w / 2) by field. rewrite <- (sqrt_square (a - w / 2) M). apply sqrt_lt_1_alt. split; [nra|exact Q].
Qed.
Lemma rd_le x y : x <= y -> rd x <= rd y. Proof. intros H. assert (V := VE). apply round_le; [exact V|apply valid_rnd_N|exact H]. Qed.
Lemma rd_idem x : rd (rd x) = rd x.
Proof. assert (V := VE). apply round_generic; [apply valid_rnd_N|]. apply generic_format_round; [exact V|apply valid_rnd_N]. Qed.
Lemma rd_pos x : 0 <= x -> 0 <= rd x.
Proof. intros H. rewrite <- (round_0 radix2 (FLX_exp 53) ZnearestE). now apply rd_le. Qed.
Lemma radius_ge x y z : fmt z -> Rabs z <= fl_radius binary64 (x, y, z).
Proof.
  intros Fz. unfold fl_radius. cbn [rnd binary64]. destruct (Req_dec z 0) as [->|N]; [rewrite Rabs_R0; apply rd_pos, sqrt_pos|].
  apply Rle_trans with (rd (sqrt (rd (Rabs z * Rabs z)))); [apply sqrt_square_ge; [now apply Rabs_pos_lt|now apply generic_format_abs]|]. apply rd_le, sqrt_le_1_alt. replace (Rabs z * Rabs z) with (z * z) by (rewrite <- Rabs_mult, Rabs_pos_eq; [reflexivity|nra]).
  rewrite <- (rd_idem (z * z)) at 1. apply rd_le. assert (0 <= rd (rd (x * x) + rd (y * y))); [|lra]. apply rd_pos. assert (0 <= rd (x * x)) by (apply rd_pos; nra). assert (0 <= rd (y * y)) by (apply rd_pos; nra). lra.
Qed.
Lemma off_origin v : v <> v0 -> fl_radius binary64 v <> 0.
Proof.
  intros N E. destruct (radius_rel _ _ C64_binary64_is_accurate v) as (t & Et & F). assert (P := fac_pos _ _ C64_binary64_is_accurate _ _ F). rewrite E in Et. symmetry in Et. apply Rmult_integral in Et. destruct Et as [Z|Z]; [|lra]. apply N. now apply TranslationsProofs.vnorm_0_iff.
Qed.
(* the z coordinate is a binary64 number, as all of the array are *)
Theorem C84_cosine_in_range : forall x y z, fmt z -> (x, y, z) <> v0 -> -1 <= fl_cosine binary64 (x, y, z) <= 1.
Proof.
  intros x y z Fz N. assert (R0 := off_origin _ N). assert (G := radius_ge x y z Fz). set (r := fl_radius binary64 (x, y, z)) in *. assert (Hr : 0 < r) by (assert (P := Rabs_pos z); destruct (Rtotal_order r 0) as [?|[?|?]]; lra).
  assert (B : -1 <= z / r <= 1). { apply Rabs_le_between in G. split; [apply (Rmult_le_reg_r r)|apply (Rmult_le_reg_r r)]; try exact Hr; unfold Rdiv; rewrite Rmult_assoc, Rinv_l, Rmult_1_r by lra; lra. }
  unfold fl_cosine. fold r. cbn [rnd binary64]. split.
  - replace (-1) with (rd (-1)); [now apply rd_le|]. replace (-1) with (Ropp 1) by ring. change ZnearestE with (Znearest (fun n => negb (Z.even n))). rewrite round_NE_opp. f_equal. apply rnd_one.
  - rewrite <- rnd_one. now apply rd_le.
Qed.
Print Assumptions C84_cosine_in_range.
Theorem C84_results_exist : forall lib l m pts, (forall p, In p pts -> fmt (snd (pp p)) /\ pp p <> v0) -> exists q, fl_qmoment binary64 lib l m pts q.
Proof.
  intros lib l m pts H. unfold fl_qmoment. destruct (Z.eqb_spec l 0).
  - destruct (fl_sum_exists binary64 (map (fl_monopole binary64) pts)) as (x & Hx). now exists (x, 0).
  - destruct (fl_sum_exists binary64 (map (fun p => fst (fl_term binary64 lib l m p)) pts)) as (x & Hx). destruct (fl_sum_exists binary64 (map (fun p => snd (fl_term binary64 lib l m p)) pts)) as (y & Hy).
    exists (x, y). split; [|split; [exact Hx|exact Hy]]. intros p Hp. destruct (H p Hp) as [F N]. split; [now apply off_origin|]. destruct (pp p) as [[a b] c]. now apply C84_cosine_in_range.
Qed.
Print Assumptions C84_results_exist.
Definition perfect : library := mklib acos arctan2 pow sph_harm.
Lemma perfect_accurate u : 0 <= u -> accurate_lib u perfect /\ forall l m, sph_within 0 perfect l m.
Proof.
  intros Hu. assert (Z : forall (a X : R), 0 <= X -> Rabs (a - a) <= 2 * u * X) by (intros a X HX; replace (a - a) with 0 by ring; rewrite Rabs_R0; apply Rmult_le_pos; lra). split.
  - split; [|split].
    + intros c Hc. split; [apply acos_bound|]. apply Z. apply acos_bound.
    + intros y x. apply Z, Rabs_pos.
    + intros r n. apply Z, Rabs_pos.
  - intros l m ph th _. cbn [l_sph perfect]. replace (sph_harm m l ph th - sph_harm m l ph th)%C with (RtoC 0) by ring. rewrite Cmod_0. apply Rle_refl.
Qed.
(* concrete: three points, one of them on the axis, and the moment of degree 2 and order 1 *)
Example C84_case : exists q, fl_qmoment binary64 perfect 2 1 (mkpt 1 (1, 2, 1) :: mkpt 3 (0, 0, 1) :: mkpt (-2) (5, 0, 0) :: nil) q /\
  off_axis (1 / 2) (mkpt 1 (1, 2, 1) :: mkpt (-2) (5, 0, 0) :: nil) /\ accurate (/ 2 ^ 53) binary64 /\ accurate_lib (/ 2 ^ 53) perfect /\ sph_within 0 perfect 2 1.
Proof.
  destruct (C84_results_exist perfect 2 1 (mkpt 1 (1, 2, 1) :: mkpt 3 (0, 0, 1) :: mkpt (-2) (5, 0, 0) :: nil)) as (q & Hq).
  - assert (F1 : fmt 1) by (change 1 with (bpow radix2 0); apply generic_format_bpow; unfold FLX_exp; lia). intros p [<-|[<-|[<-|[]]]]; cbn [pp snd]; (split; [first [exact F1|apply generic_format_0]|intros E; injection E; intros; lra]).
  - exists q. split; [exact Hq|]. assert (U : 0 <= / 2 ^ 53) by (exact (proj1 (proj1 C64_binary64_is_accurate))). destruct (perfect_accurate _ U) as [P1 P2]. split; [|split; [exact C64_binary64_is_accurate|split; [exact P1|apply P2]]].
    assert (Q : forall a b, 0 <= a -> a * a / 4 <= b -> 1 / 2 * sqrt (a * a) <= sqrt b). { intros a b Ha Hb. rewrite sqrt_square by exact Ha. rewrite <- (sqrt_square (1 / 2 * a)) by lra. apply sqrt_le_1_alt. lra. }
    intros p [<-|[<-|[]]]; cbn [pp]; rewrite vnorm_xyz.
    + replace (1 ^ 2 + 2 ^ 2 + 1 ^ 2) with (sqrt 6 * sqrt 6) by (rewrite sqrt_sqrt; lra). apply Q; [apply sqrt_pos|]. rewrite sqrt_sqrt; lra.
    + replace (5 ^ 2 + 0 ^ 2 + 0 ^ 2) with (5 * 5) by ring. apply Q; lra.
Qed.
(* the bound in binary64 for up to a million points *)
Theorem C84_binary64 : forall l m, (Z.abs m <= l <= 1000)%Z -> exists K, 0 < K /\
  forall lib pts, accurate_lib (/ 2 ^ 53) lib -> sph_within (/ 2 ^ 40) lib l m -> (length pts <= 1000 * 1000)%nat -> (forall p, In p pts -> fmt (snd (pp p)) /\ pp p <> v0) ->
    exists q Q, fl_qmoment binary64 lib l m pts q /\ qmoment l m pts = Ok Q /\ Cmod (q - Q)%C <= K * / 2 ^ 26 * moment_size l pts.
Proof.
  intros l m Hm. destruct (C84_rounding l m ltac:(lia)) as (K & HK & H). exists (2 * K). split; [lra|]. intros lib pts HL Hs Hn HF. destruct (C84_results_exist lib l m pts HF) as (q & Hq).
  assert (E40 : 0 <= / 2 ^ 40 <= / 2 ^ 29). { split; [left; apply Rinv_0_lt_compat, pow_lt; lra|]. apply Rinv_le_contravar; [apply pow_lt; lra|]. apply Rle_pow; [lra|lia]. }
  assert (E29 : / 2 ^ 29 <= 1). { rewrite <- Rinv_1. apply Rinv_le_contravar; [lra|]. apply pow_R1_Rle. lra. }
  destruct (H (/ 2 ^ 53) binary64 lib (/ 2 ^ 40) pts q C64_binary64_is_accurate HL ltac:(lra) Hs Hq) as (Q & EQ & B). exists q, Q. split; [exact Hq|]. split; [exact EQ|]. apply Rle_trans with (1 := B). apply Rmult_le_compat_r; [apply size_pos|]. rewrite (Rmult_comm 2 K), !Rmult_assoc. apply Rmult_le_compat_l; [lra|].
  set (n := (6 + 4 * Z.to_nat l + length pts)%nat). assert (HN : INR n <= 2 ^ 21). { rewrite INR_IZR_INZ. rewrite (pow_IZR 2 21). apply IZR_le. change (2 ^ Z.of_nat 21)%Z with 2097152%Z. unfold n. lia. }
  assert (P53 : 0 < / 2 ^ 53) by (apply Rinv_0_lt_compat, pow_lt; lra). assert (E3 : 2 ^ 21 * / 2 ^ 53 = / 2 ^ 32) by (field; lra). assert (P32 : INR n * / 2 ^ 53 <= / 2 ^ 32) by (rewrite <- E3; apply Rmult_le_compat_r; lra).
  assert (E32 : / 2 ^ 32 <= / 2 ^ 29 / 8) by (right; field; lra). destruct (C64_size (/ 2 ^ 53) n) as [_ A1]; [exact (proj1 C64_binary64_is_accurate)|lra|].
  assert (SQ : sqrt (/ 2 ^ 53) <= 3 / 2 * / 2 ^ 26). { apply Rle_trans with (sqrt ((3 / 2 * / 2 ^ 26) * (3 / 2 * / 2 ^ 26))); [apply sqrt_le_1_alt; assert (E52 : 3 / 2 * / 2 ^ 26 * (3 / 2 * / 2 ^ 26) = 9 / 2 * / 2 ^ 53) by (field; lra); lra|]. rewrite sqrt_square; [apply Rle_refl|]. assert (0 < / 2 ^ 26) by (apply Rinv_0_lt_compat, pow_lt; lra). lra. }
  assert (E26 : / 2 ^ 29 = / 2 ^ 26 / 8) by (field; lra). assert (P26 : 0 < / 2 ^ 26) by (apply Rinv_0_lt_compat, pow_lt; lra). fold n in A1. lra.
Qed.
Print Assumptions C84_binary64.
