(* C86: rounding errors of PG2Multi.Qmomentb and Qmomentsb. *)
From Coq Require Import Reals Lra Lia List ZArith Permutation.
From Coquelicot Require Import Coquelicot.
From Verif Require Import Glib GlibSpec GlibProofs MathSpec Solid SolidSpec MomentSpec Arr Pg2Multi Pg2MultiProofs Props_Moments LipInt FloatSpec FlGlib Props_Float FlMomSpec FlMom FlMoms FlOut Props_Float5 Props_Float6.
From Verif Require Import Cplx.
Open Scope R_scope.

(* the sum of |mass| / r^(l+1) *)
Definition outer_size (l : Z) (pts : list pt) : R := lsr (fun p => Rabs (pm p) / vnorm (pp p) ^ Z.to_nat (l + 1)) pts.
Lemma inv_pos (v : vec) n : vnorm v <> 0 -> 0 < / vnorm v ^ n.
Proof. intros H. apply Rinv_0_lt_compat, pow_lt. now apply vnorm_pos'. Qed.
Lemma outer_size_pos l pts : (forall p, In p pts -> vnorm (pp p) <> 0) -> 0 <= outer_size l pts.
Proof.
  intros H. unfold outer_size, lsr. induction pts as [|p pts IH]; cbn [fold_right]; [lra|]. assert (P := Rabs_pos (pm p)). assert (Q := inv_pos (pp p) (Z.to_nat (l + 1)) (H p (or_introl eq_refl))). specialize (IH (fun q Hq => H q (or_intror Hq))). unfold Rdiv at 1. nra.
Qed.
Lemma outer_size_abs l pts : (forall p, In p pts -> vnorm (pp p) <> 0) -> lsr (fun p => Rabs (pm p * / vnorm (pp p) ^ Z.to_nat (l + 1))) pts = outer_size l pts.
Proof.
  intros H. unfold outer_size, lsr. induction pts as [|p pts IH]; cbn [fold_right]; [reflexivity|]. rewrite (IH (fun q Hq => H q (or_intror Hq))), Rabs_mult, (Rabs_pos_eq (/ vnorm (pp p) ^ Z.to_nat (l + 1))); [reflexivity|]. left. now apply inv_pos, H, or_introl.
Qed.
Lemma outer_term l m v : (Z.abs m <= l)%Z -> vnorm v <> 0 -> (RtoC (/ vnorm v ^ Z.to_nat (l + 1)) * Cconj (rsolid l m (dir v)))%C = isolid l m v.
Proof.
  intros Hm Hn. unfold isolid. rewrite <- (dir_exact l m v Hm Hn). replace (Z.to_nat (2 * l + 1)) with (Z.to_nat (l + 1) + Z.to_nat l)%nat by lia. rewrite pow_add. set (a := vnorm v ^ Z.to_nat (l + 1)). set (b := vnorm v ^ Z.to_nat l). assert (Ha : a <> 0) by (now apply pow_nonzero). assert (Hb : b <> 0) by (now apply pow_nonzero). apply injective_projections; cbn; field; split; assumption || (try split; nra || assumption).
Qed.
Lemma outer_parts l m pts : (Z.abs m <= l)%Z -> (forall p, In p pts -> vnorm (pp p) <> 0) ->
  fst (outer_moment pts l m) = lsr (fun p => pm p * / vnorm (pp p) ^ Z.to_nat (l + 1) * fst (Cconj (rsolid l m (dir (pp p))))) pts /\
  snd (outer_moment pts l m) = lsr (fun p => pm p * / vnorm (pp p) ^ Z.to_nat (l + 1) * snd (Cconj (rsolid l m (dir (pp p))))) pts.
Proof.
  intros Hm H. unfold outer_moment, lsum, lsr. induction pts as [|p pts IH]; cbn [fold_right]; [split; reflexivity|].
  destruct IH as [I1 I2]. { intros q Hq. apply H. now right. } assert (E := outer_term l m (pp p) Hm (H p (or_introl eq_refl))). rewrite <- E, <- I1, <- I2. cbn [fst snd Cmult Cplus RtoC Cconj]. split; ring.
Qed.
Section Rounding.
Context (A : arith) (u : R) (HA : accurate u A) (lib : library) (HL : accurate_lib u lib).
Let rel := Props_Float.rel u. Let close := Props_Float.close u.
Lemma scl_rel k d D : D <> 0 -> rel k d D -> rel (2 + k) (rnd A (1 / rnd A d)) (/ D).
Proof. intros HD H. replace (/ D) with (1 / D) by (field; exact HD). apply (rel_rnd A u HA (1 + k)), (rel_div A u HA 0 (1 + k)); [exact HD|apply (rel_refl A u HA)|]. apply (rel_rnd A u HA k). exact H. Qed.
Lemma pow_rel l v : rel (3 + Z.to_nat (l + 1) * 4) (l_pow lib (fl_radius A v) (Z.to_nat (l + 1))) (vnorm v ^ Z.to_nat (l + 1)).
Proof. apply (rel_lib A u HA _ (fl_radius A v ^ Z.to_nat (l + 1))); [apply (rel_pow A u HA), (radius_rel A u HA)|apply (proj2 (proj2 HL))]. Qed.
Let har (l m : Z) (p : pt) : C := l_sph lib m l (fl_azimuth A lib (pp p)) (l_acos lib (fl_cosine A (pp p))).
Lemma outer_rel l m p : vnorm (pp p) <> 0 ->
  rel (9 + Z.to_nat (l + 1) * 4) (fst (fl_outer_term A lib l m p)) (pm p * / vnorm (pp p) ^ Z.to_nat (l + 1) * fst (har l m p)) /\
  rel (9 + Z.to_nat (l + 1) * 4) (snd (fl_outer_term A lib l m p)) (pm p * / vnorm (pp p) ^ Z.to_nat (l + 1) * snd (har l m p)).
Proof.
  intros Hn. assert (Z0 := rnd_0 A u HA). unfold fl_outer_term, fl_cdiv. fold (har l m p). set (h := har l m p). cbv zeta. cbn [fst snd]. set (d := l_pow lib _ _).
  assert (Hd : vnorm (pp p) ^ Z.to_nat (l + 1) <> 0) by (now apply pow_nonzero). assert (SC := scl_rel _ _ _ Hd (pow_rel l (pp p))). fold d in SC. set (D := vnorm (pp p) ^ Z.to_nat (l + 1)) in *.
  replace (0 / d) with 0 by (unfold Rdiv; ring). rewrite !Z0, !Rmult_0_l, !Rmult_0_r, !Z0, !Rminus_0_r, !Rplus_0_r.
  assert (G : forall a, rel (9 + Z.to_nat (l + 1) * 4) (rnd A (rnd A (rnd A (rnd A (pm p * a))) * rnd A (1 / rnd A d))) (pm p * / D * a)).
  { intros a. replace (pm p * / D * a) with (pm p * a * / D) by ring. apply (rel_rnd A u HA (8 + Z.to_nat (l + 1) * 4)). apply (rel_mono A u HA (3 + (2 + (3 + Z.to_nat (l + 1) * 4)))); [lia|]. apply (rel_mult A u HA 3 (2 + (3 + Z.to_nat (l + 1) * 4))); [|exact SC]. apply (rel_rnd A u HA 2), (rel_rnd A u HA 1), (rel_rnd0 A u HA). }
  split; apply G.
Qed.
Lemma outer_core l m K M d eta pts q : (Z.abs m <= l)%Z -> 0 <= K ->
  (forall v : V3, sn V3 v <= 3 -> Cmod (rsolid l m v) <= M) ->
  (forall v w : V3, sn V3 v <= 3 -> sn V3 w <= 3 -> Cmod (rsolid l m v - rsolid l m w)%C <= K * sd V3 v w) ->
  sph_within eta lib l m -> (forall p, In p pts -> fl_radius A (pp p) <> 0) -> fl_outer_sum A lib l m pts q -> (forall p, In p pts -> sd V3 (fl_dir A lib (pp p)) (dir (pp p)) <= d) ->
  Cmod (q - outer_moment pts l m)%C <= 2 * ((M + eta) * after u (9 + Z.to_nat (l + 1) * 4 + length pts) + eta + K * d) * outer_size l pts.
Proof.
  intros Hm HK HM HLip Hs HR (HC & Q1 & Q2) Hd. assert (HN : forall p, In p pts -> vnorm (pp p) <> 0) by (intros p Hp; apply (radius_zero A u HA); now apply HR).
  set (h := har l m).
  assert (HH : forall p, In p pts -> Cmod (h p) <= M + eta /\ Cmod (h p - Cconj (rsolid l m (dir (pp p))))%C <= eta + K * d).
  { intros p Hp. assert (Hc := HC p Hp). assert (Ht := proj1 (proj1 HL _ Hc)). assert (E1 := Hs (fl_azimuth A lib (pp p)) _ Ht). assert (E2 := sph_at l m _ (fl_azimuth A lib (pp p)) Hm Ht). fold (fl_dir A lib (pp p)) in E2.
    assert (E3 : Cmod (h p - Cconj (rsolid l m (fl_dir A lib (pp p))))%C <= eta). { rewrite <- E2. rewrite Cconj_conj. exact E1. }
    assert (U1 := unit_size (l_acos lib (fl_cosine A (pp p))) (fl_azimuth A lib (pp p))). assert (U2 := unit_size (acos (snd (pp p) / vnorm (pp p))) (arctan2 (snd (fst (pp p))) (fst (fst (pp p))))). change (sn V3 (fl_dir A lib (pp p)) <= 3) in U1. change (sn V3 (dir (pp p)) <= 3) in U2.
    assert (L1 := HLip _ _ U1 U2). assert (L2 := HM _ U1). assert (D1 := Hd p Hp). rewrite <- cmod_conj5 in L2. split.
    - replace (h p) with ((h p - Cconj (rsolid l m (fl_dir A lib (pp p)))) + Cconj (rsolid l m (fl_dir A lib (pp p))))%C by ring. apply Rle_trans with (1 := Cmod_triangle _ _). lra.
    - replace (h p - Cconj (rsolid l m (dir (pp p))))%C with ((h p - Cconj (rsolid l m (fl_dir A lib (pp p)))) + Cconj (rsolid l m (fl_dir A lib (pp p)) - rsolid l m (dir (pp p))))%C by (apply injective_projections; cbn; ring). apply Rle_trans with (1 := Cmod_triangle _ _). rewrite cmod_conj5. assert (K * sd V3 (fl_dir A lib (pp p)) (dir (pp p)) <= K * d) by (now apply Rmult_le_compat_l). lra. }
  set (X := fun p => pm p * / vnorm (pp p) ^ Z.to_nat (l + 1)). set (n := (9 + Z.to_nat (l + 1) * 4 + length pts)%nat).
  assert (AP : 0 <= after u n) by (unfold after; assert (G := ihk_ge1 A u HA n); lra).
  destruct (outer_parts l m pts Hm HN) as [I1 I2].
  destruct (weighted X (fun p => fst (h p)) (fun p => fst (Cconj (rsolid l m (dir (pp p))))) (eta + K * d) (M + eta) pts) as [W1 W2].
  { intros p Hp. destruct (HH p Hp) as [H1 H2]. split; [apply Rle_trans with (2 := H1), le_parts|]. apply Rle_trans with (2 := H2). exact (proj1 (le_parts (h p - Cconj (rsolid l m (dir (pp p))))%C)). }
  destruct (weighted X (fun p => snd (h p)) (fun p => snd (Cconj (rsolid l m (dir (pp p))))) (eta + K * d) (M + eta) pts) as [W3 W4].
  { intros p Hp. destruct (HH p Hp) as [H1 H2]. split; [apply Rle_trans with (2 := H1), le_parts|]. apply Rle_trans with (2 := H2). exact (proj2 (le_parts (h p - Cconj (rsolid l m (dir (pp p))))%C)). }
  assert (C1 := fl_sum_close A u HA _ _ Q1 (9 + Z.to_nat (l + 1) * 4)%nat (map (fun p => X p * fst (h p)) pts)). assert (C2 := fl_sum_close A u HA _ _ Q2 (9 + Z.to_nat (l + 1) * 4)%nat (map (fun p => X p * snd (h p)) pts)).
  rewrite map_length in C1, C2. fold n in C1, C2.
  destruct C1 as [_ C1]. { clear -HA HL h X rel HN. induction pts as [|p pts IH]; cbn [map]; [apply Forall2_nil|]. apply Forall2_cons; [apply (proj1 (outer_rel l m p (HN p (or_introl eq_refl))))|apply IH; intros q Hq; now apply HN, or_intror]. }
  destruct C2 as [_ C2]. { clear -HA HL h X rel HN. induction pts as [|p pts IH]; cbn [map]; [apply Forall2_nil|]. apply Forall2_cons; [apply (proj2 (outer_rel l m p (HN p (or_introl eq_refl))))|apply IH; intros q Hq; now apply HN, or_intror]. }
  change (/ (1 - u) ^ n - 1) with (after u n) in C1, C2.
  unfold X in W1, W2, W3, W4. rewrite (outer_size_abs l pts HN) in W1, W2, W3, W4. rewrite <- I1 in W2. rewrite <- I2 in W4. fold X in W1, W2, W3, W4.
  set (T1 := map (fun p => X p * fst (h p)) pts) in *. set (T2 := map (fun p => X p * snd (h p)) pts) in *.
  change (map (fun p => pm p * / vnorm (pp p) ^ Z.to_nat (l + 1) * fst (h p)) pts) with T1 in W1, W2. change (map (fun p => pm p * / vnorm (pp p) ^ Z.to_nat (l + 1) * snd (h p)) pts) with T2 in W3, W4.
  apply Rle_trans with (1 := parts_le _). set (Q := outer_moment pts l m) in *. change (Rabs (fst q - fst Q) + Rabs (snd q - snd Q) <= 2 * ((M + eta) * after u n + eta + K * d) * outer_size l pts).
  assert (Y1 : after u n * tot_abs T1 <= after u n * ((M + eta) * outer_size l pts)) by (now apply Rmult_le_compat_l). assert (Y2 : after u n * tot_abs T2 <= after u n * ((M + eta) * outer_size l pts)) by (now apply Rmult_le_compat_l).
  assert (Z1 : Rabs (fst q - fst Q) <= after u n * ((M + eta) * outer_size l pts) + (eta + K * d) * outer_size l pts).
  { replace (fst q - fst Q) with ((fst q - Props_Float.tot T1) + (Props_Float.tot T1 - fst Q)) by ring. apply Rle_trans with (1 := Rabs_triang _ _). lra. }
  assert (Z2 : Rabs (snd q - snd Q) <= after u n * ((M + eta) * outer_size l pts) + (eta + K * d) * outer_size l pts).
  { replace (snd q - snd Q) with ((snd q - Props_Float.tot T2) + (Props_Float.tot T2 - snd Q)) by ring. apply Rle_trans with (1 := Rabs_triang _ _). lra. }
  lra.
Qed.
End Rounding.
Lemma outer_le l m : (Z.abs m <= l)%Z -> exists M, 0 <= M /\ forall pts, (forall p, In p pts -> vnorm (pp p) <> 0) -> Cmod (outer_moment pts l m) <= M * outer_size l pts.
Proof.
  intros Hm. destruct (harmonic_constants l m) as (K & M & P1 & P2 & B & _). exists M. split; [exact P2|]. intros pts H. unfold outer_moment, outer_size, lsum, lsr. induction pts as [|p pts IH]; cbn [fold_right].
  - rewrite Cmod_0, Rmult_0_r. apply Rle_refl.
  - assert (H0 := H p (or_introl eq_refl)). specialize (IH (fun q Hq => H q (or_intror Hq))). apply Rle_trans with (1 := Cmod_triangle _ _). rewrite Rmult_plus_distr_l. apply Rplus_le_compat; [|exact IH].
    rewrite <- (outer_term l m (pp p) Hm H0). rewrite !Cmod_mult, !Cmod_R, cmod_conj5. assert (U := unit_size (acos (snd (pp p) / vnorm (pp p))) (arctan2 (snd (fst (pp p))) (fst (fst (pp p))))). assert (BB := B (dir (pp p)) U).
    assert (NN := inv_pos (pp p) (Z.to_nat (l + 1)) H0). rewrite (Rabs_pos_eq (/ vnorm (pp p) ^ Z.to_nat (l + 1))) by lra. assert (PM := Rabs_pos (pm p)). unfold Rdiv.
    replace (M * (Rabs (pm p) * / vnorm (pp p) ^ Z.to_nat (l + 1))) with (Rabs (pm p) * (/ vnorm (pp p) ^ Z.to_nat (l + 1) * M)) by ring. apply Rmult_le_compat_l; [exact PM|]. apply Rmult_le_compat_l; [lra|exact BB].
Qed.
Definition off_origin_all (pts : list pt) : Prop := forall p, In p pts -> ~ at_origin p.
Lemma no_zero A u pts : accurate u A -> off_origin_all pts -> (forall p, In p pts -> fl_radius A (pp p) <> 0) /\ (forall p, In p pts -> vnorm (pp p) <> 0).
Proof.
  intros HA H. assert (V : forall p, In p pts -> vnorm (pp p) <> 0) by (intros p Hp E; apply (H p Hp); now apply TranslationsProofs.vnorm_0_iff). split; [|exact V].
  intros p Hp E. destruct (radius_rel _ _ HA (pp p)) as (t & Et & F). assert (P := fac_pos _ _ HA _ _ F). rewrite E in Et. symmetry in Et. apply Rmult_integral in Et. destruct Et as [Z|Z]; [now apply (V p Hp)|lra].
Qed.
Lemma outer_sum_bound l m : (Z.abs m <= l)%Z -> forall c, 0 <= c -> exists K, 0 < K /\
  forall u A lib eta e pts q, accurate u A -> accurate_lib u lib -> 0 <= eta <= 1 -> 0 <= e -> sph_within eta lib l m -> off_origin_all pts -> fl_outer_sum A lib l m pts q ->
    (forall p, In p pts -> sd V3 (fl_dir A lib (pp p)) (dir (pp p)) <= c * e) -> Cmod (q - outer_moment pts l m)%C <= K * (e + eta + after u (13 + 4 * Z.to_nat l + length pts)) * outer_size l pts.
Proof.
  intros Hm c Hc. destruct (harmonic_constants l m) as (K & M & P1 & P2 & B & L). assert (KC : 0 <= K * c) by (now apply Rmult_le_pos). exists (2 * (M + 2 + K * c)). split; [lra|].
  intros u A lib eta e pts q HA HL He He2 Hs Ho HQ Hd. destruct (no_zero A u pts HA Ho) as [HR HN]. assert (SP := outer_size_pos l pts HN). assert (EN : (9 + Z.to_nat (l + 1) * 4 + length pts = 13 + 4 * Z.to_nat l + length pts)%nat) by lia.
  apply Rle_trans with (1 := outer_core A u HA lib HL l m K M (c * e) eta pts q Hm P1 B L Hs HR HQ Hd). rewrite EN. set (n := (13 + 4 * Z.to_nat l + length pts)%nat). assert (AP : 0 <= after u n) by (unfold after; assert (G := ihk_ge1 A u HA n); lra).
  apply Rmult_le_compat_r; [exact SP|]. assert (0 <= K * c * e) by (now apply Rmult_le_pos). assert (0 <= K * c * eta) by (apply Rmult_le_pos; lra). assert (0 <= K * c * after u n) by (now apply Rmult_le_pos). assert (0 <= M * e) by (now apply Rmult_le_pos). assert (0 <= M * eta) by (apply Rmult_le_pos; lra). nra.
Qed.
Lemma outer_entry n m : (Z.abs m <= n)%Z -> forall c, 0 <= c -> exists K, 0 < K /\
  forall u A lib eta e L pts q, accurate u A -> accurate_lib u lib -> 0 <= eta <= 1 -> 0 <= e -> sph_within eta lib n (Z.abs m) -> off_origin_all pts -> (n <= L)%Z -> fl_Qmomentsb A lib L pts q ->
    ((forall p, In p pts -> -1 <= fl_cosine A (pp p) <= 1) -> forall p, In p pts -> sd V3 (fl_dir A lib (pp p)) (dir (pp p)) <= c * e) ->
    Cmod (q n m - mom (Qmomentsb L pts) n m)%C <= K * (e + eta + after u (13 + 4 * Z.to_nat n + length pts)) * outer_size n pts.
Proof.
  intros Hm c Hc. destruct (outer_sum_bound n (Z.abs m) ltac:(lia) c Hc) as (K & HK & HB). destruct (outer_le n (Z.abs m) ltac:(lia)) as (M & HM & BM). exists (2 * M + 19 * K). split; [lra|].
  intros u A lib eta e L pts q HA HL He He2 Hs Ho HnL HQ Hd. destruct (no_zero A u pts HA Ho) as [HR HN]. assert (SP := outer_size_pos n pts HN). set (N := (13 + 4 * Z.to_nat n + length pts)%nat) in *.
  destruct HQ as [[(p & Hp & E) _]|(_ & s & Hsum & Hq)]; [exfalso; now apply (HR p Hp)|]. destruct (C10_Qmomentsb L pts ltac:(lia) Ho) as (DQ & HQ2). rewrite (proj1 HQ2 n m) by lia. rewrite (Hq n m Hm HnL).
  assert (S1 := Hsum n (Z.abs m) ltac:(lia) HnL). assert (B1 := HB u A lib eta e pts _ HA HL He He2 Hs Ho S1 (Hd (proj1 S1))). fold N in B1.
  assert (A2 : after u 8 <= after u N). { unfold after. assert (G := ihk_mono A u HA 8 N ltac:(unfold N; lia)). lra. } assert (A0 : 0 <= after u 8) by (unfold after; assert (G := ihk_ge1 A u HA 8); lra).
  set (t := e + eta + after u N) in *. assert (T0 : after u 8 <= t) by (unfold t; lra). assert (Z1 : 0 <= K * t * outer_size n pts) by (apply Rmult_le_pos; [apply Rmult_le_pos; lra|exact SP]). assert (Z2 : 0 <= M * outer_size n pts) by (now apply Rmult_le_pos).
  apply Rle_trans with (1 := entry_core A u HA s (outer_moment pts) n m _ _ (outer_symm pts n) Z1 Z2 B1 (BM pts HN)). assert (2 * after u 8 * (M * outer_size n pts) <= 2 * t * (M * outer_size n pts)) by (apply Rmult_le_compat_r; lra). lra.
Qed.
(* one outer moment *)
Theorem C86_single : forall l m, (Z.abs m <= l)%Z -> exists K, 0 < K /\
  forall u A lib eta pts q, accurate u A -> accurate_lib u lib -> 0 <= eta <= 1 -> sph_within eta lib l m -> off_origin_all pts -> fl_Qmomentb A lib l m pts q ->
    Cmod (q - Qmomentb l m pts)%C <= K * (sqrt u + eta + after u (13 + 4 * Z.to_nat l + length pts)) * outer_size l pts.
Proof.
  intros l m Hm. destruct (outer_sum_bound l m Hm 169 ltac:(lra)) as (K & HK & H). exists K. split; [exact HK|]. intros u A lib eta pts q HA HL He Hs Ho HQ. destruct (no_zero A u pts HA Ho) as [HR HN].
  destruct HQ as [[(p & Hp & E) _]|(_ & HQ)]; [exfalso; now apply (HR p Hp)|]. rewrite (C10_Qmomentb_single l m pts Hm Ho). apply (H u A lib eta (sqrt u) pts q HA HL He (sqrt_pos u) Hs Ho HQ). intros p Hp. apply (dir_any A u HA lib HL); [now apply HN|now apply (proj1 HQ)].
Qed.
Print Assumptions C86_single.
(* the array, entries of both signs of the order *)
Theorem C86_array : forall n m, (Z.abs m <= n)%Z -> exists K, 0 < K /\
  forall u A lib eta L pts q, accurate u A -> accurate_lib u lib -> 0 <= eta <= 1 -> sph_within eta lib n (Z.abs m) -> off_origin_all pts -> (n <= L)%Z -> fl_Qmomentsb A lib L pts q ->
    Cmod (q n m - mom (Qmomentsb L pts) n m)%C <= K * (sqrt u + eta + after u (13 + 4 * Z.to_nat n + length pts)) * outer_size n pts.
Proof.
  intros n m Hm. destruct (outer_entry n m Hm 169 ltac:(lra)) as (K & HK & H). exists K. split; [exact HK|]. intros u A lib eta L pts q HA HL He Hs Ho HnL HQ. destruct (no_zero A u pts HA Ho) as [HR HN].
  apply (H u A lib eta (sqrt u) L pts q HA HL He (sqrt_pos u) Hs Ho HnL HQ). intros HC p Hp. apply (dir_any A u HA lib HL); [now apply HN|now apply HC].
Qed.
Print Assumptions C86_array.
(* away from the z axis *)
Theorem C86_off_axis : forall n m, (Z.abs m <= n)%Z -> exists K, 0 < K /\
  forall u A lib eta s L pts q, accurate u A -> accurate_lib u lib -> 0 <= eta <= 1 -> sph_within eta lib n (Z.abs m) -> off_origin_all pts -> 0 < s <= 1 -> off_axis s pts -> (n <= L)%Z -> fl_Qmomentsb A lib L pts q ->
    Cmod (q n m - mom (Qmomentsb L pts) n m)%C <= K * (u / s + eta + after u (13 + 4 * Z.to_nat n + length pts)) * outer_size n pts.
Proof.
  intros n m Hm. destruct (outer_entry n m Hm 209 ltac:(lra)) as (K & HK & H). exists K. split; [exact HK|]. intros u A lib eta s L pts q HA HL He Hs Ho Hss Off HnL HQ. destruct (no_zero A u pts HA Ho) as [HR HN]. assert (HU := proj1 HA).
  apply (H u A lib eta (u / s) L pts q HA HL He ltac:(apply Rmult_le_pos; [lra|left; apply Rinv_0_lt_compat; lra]) Hs Ho HnL HQ). intros HC p Hp. apply (dir_off A u HA lib HL _ s Hss); [now apply HN|now apply HC|exact (Off p Hp)].
Qed.
Print Assumptions C86_off_axis.
(* a point at the origin: exactly zero, as in exact arithmetic *)
Theorem C86_origin : forall u A lib L l m pts q z, accurate u A -> (exists p, In p pts /\ at_origin p) -> fl_Qmomentsb A lib L pts q -> fl_Qmomentb A lib l m pts z ->
  (forall i j, q i j = RtoC 0 /\ mom (Qmomentsb L pts) i j = RtoC 0) /\ z = RtoC 0 /\ Qmomentb l m pts = RtoC 0.
Proof.
  intros u A lib L l m pts q z HA Hex HQ Hz. assert (ZR : forall p, at_origin p -> fl_radius A (pp p) = 0). { intros p Hp. destruct (radius_rel _ _ HA (pp p)) as (t & Et & _). unfold at_origin in Hp. rewrite Hp, vnorm_v0, Rmult_0_l in Et. now rewrite Hp. }
  destruct Hex as (p & Hp & Ho). assert (E := ZR p Ho). split; [|split].
  - intros i j. split; [|now apply (C10_Qmomentsb_origin_loses_everything L pts i j); exists p]. destruct HQ as [[_ HQ]|[HQ _]]; [apply HQ|exfalso; now apply (HQ p Hp)].
  - destruct Hz as [[_ Hz]|[Hz _]]; [exact Hz|exfalso; now apply (Hz p Hp)].
  - apply (C10_Qmomentsb_origin_loses_everything L pts l m). now exists p.
Qed.
Print Assumptions C86_origin.
(* in binary64 results exist for every array of numbers *)
Theorem C86_results_exist : forall lib L l m pts, (forall p, In p pts -> fmt (snd (pp p))) -> (exists q, fl_Qmomentb binary64 lib l m pts q) /\ exists q, fl_Qmomentsb binary64 lib L pts q.
Proof.
  intros lib L l m pts H. assert (D : (exists p, In p pts /\ fl_radius binary64 (pp p) = 0) \/ forall p, In p pts -> fl_radius binary64 (pp p) <> 0).
  { clear. induction pts as [|p pts IH]; [right; intros p []|]. destruct (Req_dec (fl_radius binary64 (pp p)) 0) as [E|N]; [left; exists p; split; [now left|exact E]|]. destruct IH as [(q & Hq & E)|IH]; [left; exists q; split; [now right|exact E]|]. right. intros q [<-|Hq]; [exact N|now apply IH]. }
  destruct D as [D|D].
  - split; [exists (RtoC 0); left; now split|]. exists (fun _ _ => RtoC 0). left. split; [exact D|reflexivity].
  - assert (HC : forall p, In p pts -> -1 <= fl_cosine binary64 (pp p) <= 1). { intros p Hp. assert (F := H p Hp). assert (R0 := D p Hp). destruct (pp p) as [[a b] c]. apply C84_cosine_in_range; [exact F|]. intros E. apply R0. rewrite E. destruct (radius_rel _ _ C64_binary64_is_accurate v0) as (t & Et & _). rewrite vnorm_v0, Rmult_0_l in Et. exact Et. }
    set (s := fun n m : Z => (in_turn binary64 (map (fun p => fst (fl_outer_term binary64 lib n m p)) pts), in_turn binary64 (map (fun p => snd (fl_outer_term binary64 lib n m p)) pts))).
    assert (Hs : forall n m, fl_outer_sum binary64 lib n m pts (s n m)) by (intros n k; split; [exact HC|split; apply in_turn_sum]).
    split; [exists (s l m); right; split; [exact D|apply Hs]|]. exists (fl_reflected binary64 s). right. split; [exact D|]. exists s. split; [intros; apply Hs|reflexivity].
Qed.
Print Assumptions C86_results_exist.
(* concrete *)
Example C86_case : exists q, fl_Qmomentsb binary64 perfect 3 (mkpt 1 (1, 2, 1) :: mkpt (-2) (5, 0, 0) :: nil) q /\ off_origin_all (mkpt 1 (1, 2, 1) :: mkpt (-2) (5, 0, 0) :: nil) /\
  off_axis (1 / 2) (mkpt 1 (1, 2, 1) :: mkpt (-2) (5, 0, 0) :: nil) /\ accurate (/ 2 ^ 53) binary64 /\ accurate_lib (/ 2 ^ 53) perfect /\ sph_within 0 perfect 3 2.
Proof.
  destruct C84_case as (_ & _ & Off & HA & HL & _). destruct (C86_results_exist perfect 3 0 0 (mkpt 1 (1, 2, 1) :: mkpt (-2) (5, 0, 0) :: nil)) as (_ & q & Hq).
  - assert (F1 : fmt 1) by (change 1 with (Flocq.Core.Raux.bpow Flocq.Core.Zaux.radix2 0); apply Flocq.Core.Generic_fmt.generic_format_bpow; unfold Flocq.Core.FLX.FLX_exp; lia). intros p [<-|[<-|[]]]; cbn [pp snd]; first [exact F1|apply Flocq.Core.Generic_fmt.generic_format_0].
  - exists q. split; [exact Hq|]. split; [intros p [<-|[<-|[]]] E; unfold at_origin in E; cbn [pp] in E; injection E; intros; lra|]. split; [exact Off|]. split; [exact HA|]. split; [exact HL|]. apply (proj2 (perfect_accurate (/ 2 ^ 53) ltac:(exact (proj1 (proj1 HA))))).
Qed.
