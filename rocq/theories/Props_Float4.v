(* C79: rounding errors of point_matrix_yukawa. *)
From Coq Require Import Reals Lra Lia List Permutation.
From Flocq Require Import Core Relative.
From Coquelicot Require Import Coquelicot.
From Verif Require Import Glib GlibSpec GlibProofs FloatSpec FlGlib FlYukSpec FlYuk NewtonSpec Newton Props_Float.
Open Scope R_scope.

Lemma exp_mono x y : x <= y -> exp x <= exp y.
Proof. intros [H| ->]; [left; now apply exp_increasing|lra]. Qed.
(* ---- values within a factor K of the exact one, terms of either sign ---- *)
Definition near (K x X B : R) : Prop := Rabs X <= B /\ Rabs (x - X) <= (K - 1) * B.
Lemma near_mono K K' x X B : K <= K' -> near K x X B -> near K' x X B.
Proof. intros L [H1 H2]. split; [exact H1|]. assert (P := Rabs_pos X). nra. Qed.
Lemma near_plus K x X B y Y D : near K x X B -> near K y Y D -> near K (x + y) (X + Y) (B + D).
Proof.
  intros [H1 H2] [H3 H4]. split; [apply Rle_trans with (Rabs X + Rabs Y); [apply Rabs_triang|lra]|]. replace (x + y - (X + Y)) with ((x - X) + (y - Y)) by ring.
  apply Rle_trans with (Rabs (x - X) + Rabs (y - Y)); [apply Rabs_triang|lra].
Qed.
Lemma near_opp K x X B : near K x X B -> near K (- x) (- X) B.
Proof. intros [H1 H2]. split; [now rewrite Rabs_Ropp|]. replace (- x - - X) with (- (x - X)) by ring. now rewrite Rabs_Ropp. Qed.
Lemma near_mult K x X B y : near K x X B -> near K (y * x) (y * X) (Rabs y * B).
Proof.
  intros [H1 H2]. split; [rewrite Rabs_mult; apply Rmult_le_compat_l; [apply Rabs_pos|exact H1]|]. replace (y * x - y * X) with (y * (x - X)) by ring. rewrite Rabs_mult.
  replace ((K - 1) * (Rabs y * B)) with (Rabs y * ((K - 1) * B)) by ring. apply Rmult_le_compat_l; [apply Rabs_pos|exact H2].
Qed.
Lemma near_0 K : near K 0 0 0.
Proof. split; [rewrite Rabs_R0; lra|]. rewrite Rminus_0_r, Rabs_R0. lra. Qed.

Section Rounding.
Context (A : arith) (u : R) (HA : accurate u A) (ex : R -> R) (HX : accurate_exp u ex) (alpha lmbd : R) (HL : 0 < lmbd) (dmax : R) (Hd : 0 <= dmax).
Let h := 1 - u.
Notation rel := (rel u). Notation fac := (fac u).
Definition EE : R := exp (after u 7 * (dmax / lmbd)).
Definition KK (k : nat) : R := EE / h ^ k.
Lemma after_pos k : 0 <= after u k.
Proof. unfold after. assert (G := ihk_ge1 A u HA k). lra. Qed.
Lemma dl_pos : 0 <= dmax / lmbd.
Proof. unfold Rdiv. apply Rmult_le_pos; [exact Hd|left; now apply Rinv_0_lt_compat]. Qed.
Lemma EE_ge1 : 1 <= EE.
Proof. unfold EE. rewrite <- exp_0. assert (P := after_pos 7). assert (Q := dl_pos). destruct (Req_dec (after u 7 * (dmax / lmbd)) 0) as [->|N]; [lra|]. left. apply exp_increasing. assert (0 <= after u 7 * (dmax / lmbd)) by now apply Rmult_le_pos. lra. Qed.
Lemma KK_ge1 k : 1 <= KK k.
Proof. unfold KK. assert (G := ihk_ge1 A u HA k). assert (E := EE_ge1). unfold Rdiv. fold h in G. nra. Qed.
Lemma KK_mono j k : (j <= k)%nat -> KK j <= KK k.
Proof. intros L. unfold KK, Rdiv. apply Rmult_le_compat_l; [assert (E := EE_ge1); lra|]. exact (ihk_mono A u HA j k L). Qed.
Lemma near_rnd k x X B : near (KK k) x X B -> near (KK (S k)) (rnd A x) X B.
Proof.
  intros [H1 H2]. split; [exact H1|]. destruct HA as (Hu & Hr & _). assert (E := Hr x). assert (G := KK_ge1 k). assert (P := Rabs_pos X).
  assert (Hx : Rabs x <= KK k * B).
  { replace x with ((x - X) + X) by ring. apply Rle_trans with (Rabs (x - X) + Rabs X); [apply Rabs_triang|lra]. }
  assert (T : Rabs (rnd A x - X) <= u * (KK k * B) + (KK k - 1) * B).
  { replace (rnd A x - X) with ((rnd A x - x) + (x - X)) by ring. apply Rle_trans with (Rabs (rnd A x - x) + Rabs (x - X)); [apply Rabs_triang|]. apply Rplus_le_compat; [|exact H2]. apply Rle_trans with (u * Rabs x); [exact E|]. apply Rmult_le_compat_l; lra. }
  apply Rle_trans with (1 := T). replace (KK (S k)) with (/ h * KK k). 2:{ unfold KK. cbn [pow]. field. split; [|unfold h; lra]. apply pow_nonzero. unfold h. lra. }
  assert (Hi : 1 + u <= / h) by (apply (Rmult_le_reg_l h); [unfold h; lra|rewrite Rinv_r by (unfold h; lra); unfold h; nra]).
  assert (0 <= KK k * B) by (apply Rmult_le_pos; lra). nra.
Qed.
(* sums of terms within k roundings of exact terms that are themselves off by factors up to EE *)
Lemma close_near k x X B : close u k x X B -> near (/ h ^ k) x X B.
Proof. intros H. exact H. Qed.
Lemma shift_terms L L' : Forall2 (fun y Y => exists e, / EE <= e <= EE /\ y = Y * e) L' L ->
  Rabs (tot L') <= tot_abs L' /\ tot_abs L' <= EE * tot_abs L /\ Rabs (tot L' - tot L) <= (EE - 1) * tot_abs L /\ Rabs (tot L) <= tot_abs L.
Proof.
  assert (G := EE_ge1). induction 1 as [|y Y L' L (e & [E1 E2] & ->) H IH]; unfold tot, tot_abs, lsr in *; cbn [fold_right].
  - rewrite Rminus_0_r, Rabs_R0. lra.
  - destruct IH as (I1 & I2 & I3 & I4). set (a := fold_right (fun x acc => x + acc) 0 L') in *. set (b := fold_right (fun x acc => x + acc) 0 L) in *. set (c := fold_right (fun x acc => Rabs x + acc) 0 L') in *. set (d := fold_right (fun x acc => Rabs x + acc) 0 L) in *.
    assert (Pe : 0 < / EE) by (apply Rinv_0_lt_compat; lra). assert (PY := Rabs_pos Y). assert (I : EE * / EE = 1) by (apply Rinv_r; lra). assert (L1 : Rabs (e - 1) <= EE - 1) by (apply Rabs_le_between; split; nra).
    repeat split.
    + apply Rle_trans with (1 := Rabs_triang _ _). lra.
    + rewrite Rabs_mult, (Rabs_pos_eq e) by lra. nra.
    + replace (Y * e + a - (Y + b)) with (Y * (e - 1) + (a - b)) by ring. apply Rle_trans with (1 := Rabs_triang _ _). rewrite Rabs_mult. nra.
    + apply Rle_trans with (1 := Rabs_triang _ _). lra.
Qed.
Lemma close_shift k x L L' : Forall2 (fun y Y => exists e, / EE <= e <= EE /\ y = Y * e) L' L -> close u k x (tot L') (tot_abs L') -> near (KK k) x (tot L) (tot_abs L).
Proof.
  intros H [_ C]. destruct (shift_terms _ _ H) as (_ & I2 & I3 & I4). split; [exact I4|]. assert (G := ihk_ge1 A u HA k). fold h in G, C.
  replace (x - tot L) with ((x - tot L') + (tot L' - tot L)) by ring. apply Rle_trans with (1 := Rabs_triang _ _). unfold KK, Rdiv. nra.
Qed.
Lemma fdot1_near l x k L : fdot1 A l x -> Forall2 (fun ab X => exists e, / EE <= e <= EE /\ rel k (fst ab * snd ab) (X * e)) l L -> near (KK (k + length l)) x (tot L) (tot_abs L).
Proof.
  intros S H. assert (Z : exists L', Forall2 (fun ab X => rel k (fst ab * snd ab) X) l L' /\ Forall2 (fun y Y => exists e, / EE <= e <= EE /\ y = Y * e) L' L).
  { clear S. induction H as [|ab X l L (e & He & Hr) H (L' & I1 & I2)]; [exists nil; split; apply Forall2_nil|]. exists (X * e :: L'). split; apply Forall2_cons; try assumption. now exists e. }
  destruct Z as (L' & Z1 & Z2). apply (close_shift _ _ _ L' Z2). now apply (fdot1_close A u HA).
Qed.

(* ---- the code ---- *)
Lemma rel_ex k x X : rel k x X -> exists t, fac 3 t /\ ex x = exp x * t.
Proof.
  intros _. assert (E := HX x). assert (P := exp_pos x). assert (Hh := h_range A u HA). assert (Hu := proj1 HA). assert (P3 := hk_pos A u HA 3). fold h in Hh, P3. exists (ex x / exp x). split; [|field; lra].
  assert (B : Rabs (ex x / exp x - 1) <= 2 * u).
  { replace (ex x / exp x - 1) with ((ex x - exp x) * / exp x) by (field; lra). rewrite Rabs_mult, Rabs_inv, (Rabs_pos_eq (exp x)) by lra. apply (Rmult_le_reg_r (exp x)); [exact P|].
    rewrite Rmult_assoc, Rinv_l, Rmult_1_r by lra. exact E. }
  apply Rabs_le_between in B. unfold Props_Float.fac. fold h. split.
  - unfold h. replace ((1 - u) ^ 3) with (1 - 2 * u - u * (1 - 3 * u + u * u)) by ring. assert (0 <= u * (1 - 3 * u + u * u)) by (apply Rmult_le_pos; nra). lra.
  - apply (Rmult_le_reg_l (h ^ 3)); [exact P3|]. rewrite Rinv_r by lra. apply Rle_trans with (h ^ 3 * (1 + 2 * u)); [apply Rmult_le_compat_l; lra|]. unfold h. replace ((1 - u) ^ 3 * (1 + 2 * u)) with (1 - u * (1 + 3 * u - 5 * (u * u) + 2 * (u * u * u))) by ring.
    assert (0 <= u * (1 + 3 * u - 5 * (u * u) + 2 * (u * u * u))); [|lra]. apply Rmult_le_pos; [lra|]. assert (0 <= u * u) by nra. assert (u * u <= u) by nra. assert (0 <= u * u * u) by nra. nra.
Qed.
(* the exponential at the computed argument *)
Lemma exp_shift D r : 0 <= D <= dmax -> rel 6 r D -> exists e t, / EE <= e <= EE /\ fac 3 t /\ ex (rnd A (- r / lmbd)) = exp (- D / lmbd) * e * t.
Proof.
  intros HD H. assert (R7 : rel 7 (rnd A (- r / lmbd)) (- D / lmbd)).
  { apply (rel_rnd A u HA 6). destruct H as (t & -> & F). exists t. split; [field; lra|exact F]. }
  destruct (rel_ex 7 _ _ R7) as (t & Ft & Et). set (x := rnd A (- r / lmbd)) in *. exists (exp (x - - D / lmbd)), t. split; [|split; [exact Ft|]].
  2:{ rewrite Et. f_equal. rewrite <- exp_plus. f_equal. ring. }
  assert (B : Rabs (x - - D / lmbd) <= after u 7 * (dmax / lmbd)).
  { destruct (close_rel A u HA 7 x (- D / lmbd) R7) as [_ C]. apply Rle_trans with (1 := C). apply Rmult_le_compat_l; [apply (after_pos 7)|]. replace (- D / lmbd) with (- (D / lmbd)) by (field; lra). rewrite Rabs_Ropp, Rabs_pos_eq.
    - unfold Rdiv. apply Rmult_le_compat_r; [left; now apply Rinv_0_lt_compat|lra].
    - unfold Rdiv. apply Rmult_le_pos; [lra|left; now apply Rinv_0_lt_compat]. }
  apply Rabs_le_between in B. unfold EE. rewrite <- exp_Ropp. split; apply exp_mono; lra.
Qed.
Lemma fac_pos' D r : 0 < D -> rel 6 r D -> rel 23 (fl_fac A lmbd r) (1 / D ^ 3 + 1 / (D ^ 2 * lmbd)).
Proof.
  intros HD H. assert (P3 : 0 < D ^ 3) by now apply pow_lt. assert (P2 : 0 < D ^ 2) by now apply pow_lt. assert (P2l : 0 < D ^ 2 * lmbd) by now apply Rmult_lt_0_compat.
  unfold fl_fac. apply (rel_rnd A u HA 22). apply (rel_plus A u HA).
  - left. apply Rdiv_lt_0_compat; lra.
  - left. apply Rdiv_lt_0_compat; lra.
  - apply (rel_rnd A u HA 21). apply (rel_div A u HA 0 21); [lra|apply (rel_refl A u HA)|exact (rel_cube A u HA 6 _ _ H)].
  - apply (rel_mono A u HA 15); [lia|]. apply (rel_rnd A u HA 14). apply (rel_div A u HA 0 14); [lra|apply (rel_refl A u HA)|].
    apply (rel_rnd A u HA 13). apply (rel_mult A u HA 13 0); [|apply (rel_refl A u HA)]. apply (rel_rnd A u HA 12). replace (D ^ 2) with (D * D) by ring. now apply (rel_mult A u HA 6 6).
Qed.
Lemma coef_rel p : rel 3 (fl_coef A alpha p) (alpha * BIG_G * pm p).
Proof.
  unfold fl_coef. apply (rel_rnd A u HA 2), (rel_mult A u HA 2 0); [|apply (rel_refl A u HA)]. apply (rel_rnd A u HA 1). apply (rel_mult A u HA 0 1); [apply (rel_refl A u HA)|apply (rel_rnd0 A u HA)].
Qed.
Lemma yuk_weight_rel p q r : 0 < vnorm (vsub (pp q) (pp p)) <= dmax -> rel 6 r (vnorm (vsub (pp q) (pp p))) ->
  exists e, / EE <= e <= EE /\ rel 32 (fl_yuk_weight A ex alpha lmbd p q r) (wY alpha lmbd (pm p) (pm q) (vnorm (vsub (pp q) (pp p))) * e).
Proof.
  set (D := vnorm (vsub (pp q) (pp p))). intros HD H. destruct (exp_shift D r ltac:(lra) H) as (e & t & He & Ft & Et). exists e. split; [exact He|]. unfold fl_yuk_weight, wY, yuk_weight.
  apply (rel_rnd A u HA 31). replace (alpha * BIG_G * pm p * pm q * exp (- D / lmbd) * (1 / D ^ 3 + 1 / (D ^ 2 * lmbd)) * e) with (alpha * BIG_G * pm p * pm q * (exp (- D / lmbd) * e) * (1 / D ^ 3 + 1 / (D ^ 2 * lmbd))) by ring.
  apply (rel_mult A u HA 8 23); [|apply fac_pos'; [lra|exact H]]. apply (rel_rnd A u HA 7), (rel_mult A u HA 4 3).
  - apply (rel_rnd A u HA 3), (rel_mult A u HA 3 0); [apply coef_rel|apply (rel_refl A u HA)].
  - exists t. split; [exact Et|exact Ft].
Qed.
Lemma wY_attraction p q i : vnorm (vsub (pp q) (pp p)) <> 0 -> co i (vsub (pp q) (pp p)) * wY alpha lmbd (pm p) (pm q) (vnorm (vsub (pp q) (pp p))) = co i (yuk_attraction alpha lmbd p q).
Proof.
  intros N. unfold yuk_attraction, wY, yuk_weight. cbv zeta. set (D := vnorm (vsub (pp q) (pp p))) in *. set (x := exp (- D / lmbd)). clearbody D x. destruct (vsub (pp q) (pp p)) as [[x' y] z], i; unfold co, vscal; field; lra.
Qed.
Lemma yuk_term_rel p q r i : vnorm (vsub (pp q) (pp p)) <= dmax -> fl_modulus A p q r -> r <> 0 ->
  vnorm (vsub (pp q) (pp p)) <> 0 /\ exists e, / EE <= e <= EE /\ rel 33 (fl_sep A p q i * fl_yuk_weight A ex alpha lmbd p q r) (co i (yuk_attraction alpha lmbd p q) * e).
Proof.
  intros L H N. assert (M := modulus_rel A u HA p q r H). assert (N' : vnorm (vsub (pp q) (pp p)) <> 0). { intros E. apply N. destruct M as (t & -> & _). rewrite E. ring. }
  split; [exact N'|]. assert (P : 0 < vnorm (vsub (pp q) (pp p))). { assert (G : 0 <= vnorm (vsub (pp q) (pp p))) by (destruct (vsub (pp q) (pp p)) as [[x y] z]; apply sqrt_pos). lra. }
  destruct (yuk_weight_rel p q r ltac:(lra) M) as (e & He & Hw). exists e. split; [exact He|]. rewrite <- (wY_attraction p q i N'), Rmult_assoc. apply (rel_mult A u HA 1 32); [apply (sep_rel A u HA)|exact Hw].
Qed.
Definition sumY (i : axis) (p : pt) (l : list pt) : R := lsr (fun q => co i (yuk_attraction alpha lmbd p q)) l.
Definition absY (i : axis) (p : pt) (l : list pt) : R := lsr (fun q => Rabs (co i (yuk_attraction alpha lmbd p q))) l.
Lemma yukawa_close p b f : (forall q, In q (rows b) -> vnorm (vsub (pp q) (pp p)) <= dmax) -> fl_yukawa_array A ex alpha lmbd p b f ->
  (forall q, In q (rows b) -> vnorm (vsub (pp q) (pp p)) <> 0) /\ forall i, near (KK (33 + length (rows b))) (co i f) (sumY i p (rows b)) (absY i p (rows b)).
Proof.
  intros Far [_ H]. destruct b as [q|l]; cbn [rows length] in *.
  - destruct H as (r & H & N & E). assert (L := Far q ltac:(now left)). split; [intros q' [<-|[]]; exact (proj1 (yuk_term_rel p q r AX L H N))|]. intros i. rewrite E.
    destruct (yuk_term_rel p q r i L H N) as (_ & e & He & Hr). change (33 + 1)%nat with (33 + length ((1, 1) :: nil))%nat. apply (close_shift _ _ (co i (yuk_attraction alpha lmbd p q) :: nil) (co i (yuk_attraction alpha lmbd p q) * e :: nil)).
    + apply Forall2_cons; [|apply Forall2_nil]. now exists e.
    + unfold tot, tot_abs, lsr. cbn [fold_right length]. rewrite !Rplus_0_r. change (33 + 1)%nat with (S 33). apply (close_rel A u HA), (rel_rnd A u HA). exact Hr.
  - destruct H as (rs & H & E). split.
    + clear E. intros q Hq. induction H as [|x r l rs [H1 H2] H IH]; [destruct Hq|]. destruct Hq as [<-|Hq]; [exact (proj1 (yuk_term_rel p x r AX (Far x ltac:(now left)) H1 H2))|apply IH; [|exact Hq]]. intros; apply Far; now right.
    + intros i. specialize (E i). destruct l as [|x l].
      * cbn [combine map fdot] in E. unfold sumY, absY, lsr. cbn [fold_right]. rewrite E. apply near_0.
      * set (L := x :: l) in *. assert (HD : fdot1 A (map (fun qr => (fl_sep A p (fst qr) i, fl_yuk_weight A ex alpha lmbd p (fst qr) (snd qr))) (combine L rs)) (co i f)).
        { inversion H as [|? r ? rs' ? ? E1 E2]; subst. cbn [L combine map fdot] in E |- *. exact E. }
        clear E. assert (Len : length (map (fun qr => (fl_sep A p (fst qr) i, fl_yuk_weight A ex alpha lmbd p (fst qr) (snd qr))) (combine L rs)) = length L). { rewrite map_length, combine_length. assert (G : length L = length rs) by (clear - H; induction H; cbn [length]; congruence). lia. }
        assert (C := fdot1_near _ _ 33 (map (fun q => co i (yuk_attraction alpha lmbd p q)) L) HD). rewrite Len in C.
        replace (sumY i p L) with (tot (map (fun q => co i (yuk_attraction alpha lmbd p q)) L)) by (unfold tot; now rewrite lsr_map). replace (absY i p L) with (tot_abs (map (fun q => co i (yuk_attraction alpha lmbd p q)) L)) by (unfold tot_abs; now rewrite lsr_map).
        apply C. clear - H HA HX HL Hd Far h. clearbody L. induction H as [|q r L rs [H1 H2] H IH]; cbn [combine map]; [apply Forall2_nil|]. apply Forall2_cons; [|apply IH; intros; apply Far; now right]. cbn [fst snd].
        exact (proj2 (yuk_term_rel p q r i (Far q ltac:(now left)) H1 H2)).
Qed.
Lemma yuk_cross_close p b f t : (forall q, In q (rows b) -> vnorm (vsub (pp q) (pp p)) <= dmax) -> fl_yukawa_array A ex alpha lmbd p b f -> fl_cross A (pp p) f t -> forall i,
  near (KK (35 + length (rows b))) (co i t) (co (next i) (pp p) * sumY (next (next i)) p (rows b) - co (next (next i)) (pp p) * sumY (next i) p (rows b))
    (Rabs (co (next i) (pp p)) * absY (next (next i)) p (rows b) + Rabs (co (next (next i)) (pp p)) * absY (next i) p (rows b)).
Proof.
  intros Far H Ht i. rewrite Ht. destruct (yukawa_close p b f Far H) as [_ C]. change (35 + length (rows b))%nat with (S (S (33 + length (rows b)))). unfold Rminus.
  apply near_rnd, near_plus; [|apply near_opp]; apply near_rnd, near_mult, C.
Qed.
Definition sumYT (i : axis) (p : pt) (l : list pt) : R := co (next i) (pp p) * sumY (next (next i)) p l - co (next (next i)) (pp p) * sumY (next i) p l.
Definition absYT (i : axis) (p : pt) (l : list pt) : R := Rabs (co (next i) (pp p)) * absY (next (next i)) p l + Rabs (co (next (next i)) (pp p)) * absY (next i) p l.
Lemma yuk_loop_close b l acc out : fl_yuk_loop A ex alpha lmbd b l acc out -> within_range dmax l (rows b) -> forall j XF BF XT BT,
  (forall i, near (KK (33 + length (rows b) + j)) (co i (fst acc)) (XF i) (BF i)) -> (forall i, near (KK (35 + length (rows b) + j)) (co i (snd acc)) (XT i) (BT i)) ->
  (forall p q, In p l -> In q (rows b) -> vnorm (vsub (pp q) (pp p)) <> 0) /\
  (forall i, near (KK (33 + length (rows b) + j + length l)) (co i (fst out)) (XF i + lsr (fun p => sumY i p (rows b)) l) (BF i + lsr (fun p => absY i p (rows b)) l)) /\
  (forall i, near (KK (35 + length (rows b) + j + length l)) (co i (snd out)) (XT i + lsr (fun p => sumYT i p (rows b)) l) (BT i + lsr (fun p => absYT i p (rows b)) l)).
Proof.
  induction 1 as [acc|p rest acc fK tK acc' out Hf Ht HF HT Hl IH]; intros Far j XF BF XT BT CF CT.
  - split; [intros p q []|]. unfold lsr. cbn [fold_right length]. split; intros i; rewrite !Rplus_0_r, Nat.add_0_r; auto.
  - assert (Fp : forall q, In q (rows b) -> vnorm (vsub (pp q) (pp p)) <= dmax) by (intros q Hq; apply Far; [now left|exact Hq]).
    destruct (yukawa_close p b fK Fp Hf) as [N C]. assert (D := yuk_cross_close p b fK tK Fp Hf Ht).
    destruct (IH ltac:(intros p' q Hp' Hq; apply Far; [now right|exact Hq]) (S j) (fun i => XF i + sumY i p (rows b)) (fun i => BF i + absY i p (rows b)) (fun i => XT i + sumYT i p (rows b)) (fun i => BT i + absYT i p (rows b))) as (N' & C1 & C2).
    + intros i. rewrite HF. rewrite Nat.add_succ_r. apply near_rnd, near_plus; [apply CF|]. apply (near_mono (KK (33 + length (rows b)))); [apply KK_mono; lia|apply C].
    + intros i. rewrite HT. rewrite Nat.add_succ_r. apply near_rnd, near_plus; [apply CT|]. apply (near_mono (KK (35 + length (rows b)))); [apply KK_mono; lia|apply D].
    + split; [intros p' q [<-|Hp] Hq; [now apply N|now apply N']|]. cbn [length]. unfold lsr in *. cbn [fold_right].
      split; intros i; rewrite <- !Rplus_assoc.
      * replace (33 + length (rows b) + j + S (length rest))%nat with (33 + length (rows b) + S j + length rest)%nat by lia. apply C1.
      * replace (35 + length (rows b) + j + S (length rest))%nat with (35 + length (rows b) + S j + length rest)%nat by lia. apply C2.
Qed.
Lemma point_matrix_yukawa_close a b f t : within_range dmax (rows a) (rows b) -> fl_point_matrix_yukawa A ex alpha lmbd a b f t ->
  (forall p q, In p (rows a) -> In q (rows b) -> vnorm (vsub (pp q) (pp p)) <> 0) /\
  (forall i, near (KK (33 + length (rows a) + length (rows b))) (co i f) (lsr (fun p => sumY i p (rows b)) (rows a)) (lsr (fun p => absY i p (rows b)) (rows a))) /\
  (forall i, near (KK (35 + length (rows a) + length (rows b))) (co i t) (lsr (fun p => sumYT i p (rows b)) (rows a)) (lsr (fun p => absYT i p (rows b)) (rows a))).
Proof.
  intros Far. destruct a as [p|l]; cbn [fl_point_matrix_yukawa rows length] in *.
  - intros [Hf Ht]. assert (Fp : forall q, In q (rows b) -> vnorm (vsub (pp q) (pp p)) <= dmax) by (intros q Hq; apply Far; [now left|exact Hq]).
    destruct (yukawa_close p b f Fp Hf) as [N C]. assert (D := yuk_cross_close p b f t Fp Hf Ht). split; [intros p' q [<-|[]]; apply N|].
    unfold lsr at 1 2 3 4. cbn [fold_right]. split; intros i; rewrite !Rplus_0_r; [apply (near_mono (KK (33 + length (rows b)))); [apply KK_mono; lia|apply C]|apply (near_mono (KK (35 + length (rows b)))); [apply KK_mono; lia|apply D]].
  - intros H. destruct (yuk_loop_close b l _ _ H Far 0 (fun _ => 0) (fun _ => 0) (fun _ => 0) (fun _ => 0)) as (N & C & D).
    + intros i. cbn [fst]. replace (co i v0) with 0 by now destruct i. apply near_0.
    + intros i. cbn [snd]. replace (co i v0) with 0 by now destruct i. apply near_0.
    + split; [exact N|]. split; intros i; [specialize (C i)|specialize (D i)]; rewrite !Rplus_0_l in *; [eapply near_mono; [|exact C]|eapply near_mono; [|exact D]]; apply KK_mono; lia.
Qed.
End Rounding.

(* ---- the exact values ---- *)
Lemma exact_yukawa alpha lmbd a b : 0 < lmbd -> apart_all (rows a) (rows b) -> exists F T, point_matrix_yukawa a b alpha lmbd = Ok (F, T) /\
  (forall i, co i F = lsr (fun p => sumY alpha lmbd i p (rows b)) (rows a)) /\ (forall i, co i T = lsr (fun p => sumYT alpha lmbd i p (rows b)) (rows a)).
Proof.
  intros HL H. rewrite yukawa_spec, (coincideY_nz _ _ _ (Rgt_not_eq _ _ HL)). assert (H' := H). apply coincide_false in H. rewrite H. do 2 eexists. split; [reflexivity|].
  assert (E : forall p q i, In p (rows a) -> In q (rows b) -> co i (pf (wY alpha lmbd) p q) = co i (yuk_attraction alpha lmbd p q)).
  { intros p q i Hp Hq. assert (N := norm_apart p q (H' p q Hp Hq)). rewrite <- (wY_attraction alpha lmbd) by assumption. unfold pf, dist. set (w := wY _ _ _ _ _). clearbody w. destruct (vsub (pp q) (pp p)) as [[x y] z], i; unfold co, vscal; ring. }
  split; intros i.
  - unfold totF. rewrite co_vS. apply lsr_ext. intros p Hp. rewrite co_vS. apply lsr_ext. intros q Hq. now apply E.
  - unfold totT. rewrite co_vS. apply lsr_ext. intros p Hp. rewrite co_cross, !co_vS. unfold sumYT, sumY. f_equal; f_equal; apply lsr_ext; intros q Hq; now apply E.
Qed.

(* ---- C79 ---- *)
Theorem C79_rounding : forall A u ex alpha lmbd dmax a b f t, accurate u A -> accurate_exp u ex -> 0 < lmbd -> 0 <= dmax -> within_range dmax (rows a) (rows b) ->
  fl_point_matrix_yukawa A ex alpha lmbd a b f t ->
  exists F T, point_matrix_yukawa a b alpha lmbd = Ok (F, T) /\ forall i,
    Rabs (co i f - co i F) <= after_decay u (dmax / lmbd) (33 + length (rows a) + length (rows b)) * yuk_force_size alpha lmbd i (rows a) (rows b) /\
    Rabs (co i t - co i T) <= after_decay u (dmax / lmbd) (35 + length (rows a) + length (rows b)) * yuk_torque_size alpha lmbd i (rows a) (rows b).
Proof.
  intros A u ex alpha lmbd dmax a b f t HA HX HL Hd Far H. destruct (point_matrix_yukawa_close A u HA ex HX alpha lmbd HL dmax Hd a b f t Far H) as (N & C & D).
  destruct (exact_yukawa alpha lmbd a b) as (F & T & E & EF & ET); [lra| |].
  { intros p q Hp Hq. apply apart_norm. now apply N. }
  exists F, T. split; [exact E|]. intros i. rewrite EF, ET. split; [exact (proj2 (C i))|].
  assert (Z : yuk_torque_size alpha lmbd i (rows a) (rows b) = lsr (fun p => absYT alpha lmbd i p (rows b)) (rows a)).
  { unfold yuk_torque_size. apply lsr_ext. intros p _. rewrite lsr_plus. unfold absYT, absY. rewrite <- !lsr_scal. f_equal; apply lsr_ext; intros q _; apply Rabs_mult. }
  rewrite Z. exact (proj2 (D i)).
Qed.
(* the library does return such a result as soon as no two points coincide; it needs that *)
Lemma yukawa_ex A u ex alpha lmbd p b : lmbd <> 0 -> accurate u A -> (forall q, In q (rows b) -> apart p q) -> exists f, fl_yukawa_array A ex alpha lmbd p b f.
Proof.
  intros HL HA H. destruct b as [q|l]; cbn [rows] in *.
  - destruct (fl_modulus_ex A u p q HA (H q ltac:(now left))) as (r & Hr & N). destruct (vec_ex (fun i => rnd A (fl_sep A p q i * fl_yuk_weight A ex alpha lmbd p q r))) as (f & Hf). exists f. split; [exact HL|]. exists r. now repeat split.
  - assert (Rs : exists rs, Forall2 (fun q r => fl_modulus A p q r /\ r <> 0) l rs).
    { induction l as [|q l IH]; [exists nil; apply Forall2_nil|]. destruct IH as (rs & Hrs); [intros; apply H; now right|]. destruct (fl_modulus_ex A u p q HA (H q ltac:(now left))) as (r & Hr). exists (r :: rs). now apply Forall2_cons. }
    destruct Rs as (rs & Hrs). set (g := fun i => map (fun qr => (fl_sep A p (fst qr) i, fl_yuk_weight A ex alpha lmbd p (fst qr) (snd qr))) (combine l rs)).
    destruct (fdot_ex A (g AX)) as (x & Hx). destruct (fdot_ex A (g AY)) as (y & Hy). destruct (fdot_ex A (g AZ)) as (z & Hz). exists (x, y, z). split; [exact HL|]. exists rs. split; [exact Hrs|]. intros []; assumption.
Qed.
Theorem C79_results_exist : forall A u ex alpha lmbd a b, lmbd <> 0 -> accurate u A -> apart_all (rows a) (rows b) -> exists f t, fl_point_matrix_yukawa A ex alpha lmbd a b f t.
Proof.
  intros A u ex alpha lmbd a b HL HA H. destruct a as [p|l]; cbn [fl_point_matrix_yukawa rows] in *.
  - destruct (yukawa_ex A u ex alpha lmbd p b HL HA) as (f & Hf); [intros; apply H; [now left|assumption]|]. destruct (cross_ex A (pp p) f) as (t & Ht). now exists f, t.
  - assert (G : forall acc, exists out, fl_yuk_loop A ex alpha lmbd b l acc out).
    { induction l as [|p l IH]; intros acc; [exists acc; apply fly_done|]. destruct (yukawa_ex A u ex alpha lmbd p b HL HA) as (f & Hf); [intros; apply H; [now left|assumption]|]. destruct (cross_ex A (pp p) f) as (t & Ht).
      destruct (vec_ex (fun i => rnd A (co i (fst acc) + co i f))) as (f' & Hf'). destruct (vec_ex (fun i => rnd A (co i (snd acc) + co i t))) as (t' & Ht').
      destruct (IH ltac:(intros p' q Hp Hq; apply H; [now right|assumption]) (f', t')) as (out & Ho). exists out. now apply (fly_step A ex alpha lmbd b p l acc f t (f', t')). }
    destruct (G (v0, v0)) as ([f t] & Ho). now exists f, t.
Qed.
Theorem C79_coincident_points_have_none : forall A u ex alpha lmbd a b f t p q, accurate u A -> accurate_exp u ex -> 0 < lmbd -> In p (rows a) -> In q (rows b) -> pp p = pp q ->
  ~ fl_point_matrix_yukawa A ex alpha lmbd a b f t.
Proof.
  intros A u ex alpha lmbd a b f t p q HA HX HL Hp Hq E H.
  assert (M : exists d, 0 <= d /\ within_range d (rows a) (rows b)).
  { generalize (rows a). intros l. generalize (rows b). intros m. clear. induction l as [|p l (d & Hd & I)].
    - exists 0. split; [lra|]. intros p q [].
    - assert (J : exists e, 0 <= e /\ forall q, In q m -> vnorm (vsub (pp q) (pp p)) <= e).
      { clear. induction m as [|q m (e & He & I)]; [exists 0; split; [lra|intros q []]|]. exists (Rmax e (vnorm (vsub (pp q) (pp p)))). split; [apply Rle_trans with (1 := He), Rmax_l|]. intros q' [<-|Hq]; [apply Rmax_r|]. apply Rle_trans with (1 := I q' Hq), Rmax_l. }
      destruct J as (e & He & J). exists (Rmax d e). split; [apply Rle_trans with (1 := Hd), Rmax_l|]. intros p' q [<-|Hp] Hq; [apply Rle_trans with (1 := J q Hq), Rmax_r|apply Rle_trans with (1 := I p' q Hp Hq), Rmax_l]. }
  destruct M as (d & Hd & Far). destruct (point_matrix_yukawa_close A u HA ex HX alpha lmbd HL d Hd a b f t Far H) as (N & _). exact (apart_norm p q (N p q Hp Hq) E).
Qed.
(* the size of the bound *)
Lemma exp_small y : 0 <= y <= 1 / 2 -> exp y <= 1 + 2 * y.
Proof.
  intros Hy. assert (G := exp_ineq1_le (- y)). assert (P := exp_pos (- y)). assert (E : exp y * exp (- y) = 1) by (rewrite <- exp_plus, Rplus_opp_r; apply exp_0). assert (Q := exp_pos y). nra.
Qed.
Theorem C79_size : forall u k x, 0 <= u <= 1 / 14 -> 0 <= x -> INR k * u <= 1 / 2 -> 14 * x * u <= 1 / 2 -> 0 <= after_decay u x k <= (2 * INR k + 56 * x) * u.
Proof.
  intros u k x Hu Hx Hk H14. assert (C := C64_size u k ltac:(lra) Hk). assert (C7 := C64_size u 7 ltac:(lra) ltac:(cbn [INR]; lra)). unfold after_decay. replace (INR 7) with 7 in C7 by (cbn [INR]; lra).
  assert (Y : 0 <= after u 7 * x <= 14 * x * u) by nra. assert (E1 := exp_small _ ltac:(split; [exact (proj1 Y)|lra])). assert (E0 : 1 <= exp (after u 7 * x)) by (rewrite <- exp_0 at 1; apply exp_mono; lra).
  assert (K : / (1 - u) ^ k = 1 + after u k) by (unfold after; ring). unfold Rdiv. rewrite K. set (e := exp _) in *. set (a := after u k) in *. set (y := after u 7 * x) in *. clearbody e a y. assert (P := pos_INR k). set (n := INR k) in *. clearbody n. split; [nra|].
  assert (a <= 1) by lra. nra.
Qed.
(* relative accuracy when the contributions do not cancel *)
Theorem C79_no_cancellation : forall A u ex alpha lmbd dmax a b f t i, accurate u A -> accurate_exp u ex -> 0 < lmbd -> 0 <= dmax -> within_range dmax (rows a) (rows b) ->
  fl_point_matrix_yukawa A ex alpha lmbd a b f t ->
  (forall p q, In p (rows a) -> In q (rows b) -> 0 <= co i (yuk_attraction alpha lmbd p q)) ->
  exists F T, point_matrix_yukawa a b alpha lmbd = Ok (F, T) /\ Rabs (co i f - co i F) <= after_decay u (dmax / lmbd) (33 + length (rows a) + length (rows b)) * co i F.
Proof.
  intros A u ex alpha lmbd dmax a b f t i HA HX HL Hd Far H Hp. destruct (point_matrix_yukawa_close A u HA ex HX alpha lmbd HL dmax Hd a b f t Far H) as (N & C & D).
  destruct (exact_yukawa alpha lmbd a b) as (F & T & E & EF & ET); [lra| |].
  { intros p q Hp' Hq. apply apart_norm. now apply N. }
  exists F, T. split; [exact E|]. rewrite EF. destruct (C i) as [_ Ci]. replace (lsr (fun p => sumY alpha lmbd i p (rows b)) (rows a)) with (lsr (fun p => absY alpha lmbd i p (rows b)) (rows a)) at 2; [exact Ci|].
  apply lsr_ext. intros p Hp'. apply lsr_ext. intros q Hq. apply Rabs_pos_eq. now apply Hp.
Qed.
(* ---- IEEE double precision, apart from overflow and underflow, with a correctly rounded exponential ---- *)
Definition exp64 (x : R) : R := round radix2 (FLX_exp 53) ZnearestE (exp x).
Theorem C79_exp64_is_accurate : accurate_exp (/ 2 ^ 53) exp64.
Proof.
  intros x. assert (P := exp_pos x). apply Rle_trans with (1 := round_err (exp x)). rewrite (Rabs_pos_eq (exp x)) by lra. apply Rmult_le_compat_r; [lra|]. assert (0 < / 2 ^ 53) by (apply Rinv_0_lt_compat, pow_lt; lra). lra.
Qed.
(* up to a million points, up to a million decay lengths apart; any exponential good to one unit in the last place *)
Theorem C79_binary64 : forall ex alpha lmbd dmax a b f t, accurate_exp (/ 2 ^ 53) ex -> 0 < lmbd -> 0 <= dmax <= 1000 * 1000 * lmbd -> (length (rows a) + length (rows b) <= 1000 * 1000)%nat ->
  within_range dmax (rows a) (rows b) -> fl_point_matrix_yukawa binary64 ex alpha lmbd a b f t ->
  exists F T, point_matrix_yukawa a b alpha lmbd = Ok (F, T) /\ forall i,
    Rabs (co i f - co i F) <= (INR (33 + length (rows a) + length (rows b)) + 28 * (dmax / lmbd)) / 2 ^ 52 * yuk_force_size alpha lmbd i (rows a) (rows b) /\
    Rabs (co i t - co i T) <= (INR (35 + length (rows a) + length (rows b)) + 28 * (dmax / lmbd)) / 2 ^ 52 * yuk_torque_size alpha lmbd i (rows a) (rows b).
Proof.
  intros ex alpha lmbd dmax a b f t HX HL Hd Hn Far H. destruct (C79_rounding _ _ ex alpha lmbd dmax a b f t C64_binary64_is_accurate HX HL (proj1 Hd) Far H) as (F & T & E & B). exists F, T. split; [exact E|]. intros i. destruct (B i) as [B1 B2].
  assert (Px : 0 <= dmax / lmbd <= 1000 * 1000). { split; [unfold Rdiv; apply Rmult_le_pos; [lra|left; now apply Rinv_0_lt_compat]|]. apply (Rmult_le_reg_r lmbd); [exact HL|]. unfold Rdiv. rewrite Rmult_assoc, Rinv_l, Rmult_1_r by lra. lra. }
  set (x := dmax / lmbd) in *. clearbody x.
  assert (U : 2 ^ 24 * / 2 ^ 53 <= 1 / 2). { apply (Rmult_le_reg_r (2 ^ 53)); [apply pow_lt; lra|]. rewrite Rmult_assoc, Rinv_l, Rmult_1_r by (apply pow_nonzero; lra). replace (1 / 2 * 2 ^ 53) with (2 ^ 52) by (cbn [pow]; lra). apply Rle_pow; [lra|lia]. }
  assert (U0 : 0 < / 2 ^ 53) by (apply Rinv_0_lt_compat, pow_lt; lra). assert (B24 : 2 ^ 24 = 16777216) by (cbn [pow]; lra). rewrite B24 in U.
  assert (Sz : forall k, (k <= 1000 * 1000 + 35)%nat -> after_decay (/ 2 ^ 53) x k <= (INR k + 28 * x) / 2 ^ 52).
  { intros k Hk. assert (Ik : INR k <= 1000035). { rewrite INR_IZR_INZ. apply IZR_le. lia. }
    destruct (C79_size (/ 2 ^ 53) k x) as [_ G].
    - lra.
    - lra.
    - nra.
    - nra.
    - replace ((INR k + 28 * x) / 2 ^ 52) with ((2 * INR k + 56 * x) * / 2 ^ 53) by (replace (2 ^ 53) with (2 * 2 ^ 52) by (cbn [pow]; lra); field; apply pow_nonzero; lra). exact G. }
  assert (P1 : 0 <= yuk_force_size alpha lmbd i (rows a) (rows b)) by (apply lsr_ge0; intros p; apply lsr_ge0; intros q; apply Rabs_pos).
  assert (P2 : 0 <= yuk_torque_size alpha lmbd i (rows a) (rows b)) by (apply lsr_ge0; intros p; apply lsr_ge0; intros q; apply Rplus_le_le_0_compat; apply Rabs_pos).
  split; [apply Rle_trans with (1 := B1)|apply Rle_trans with (1 := B2)]; apply Rmult_le_compat_r; try assumption; apply Sz; lia.
Qed.
(* the hypotheses are met: two points on each side, double precision *)
Example C79_case : let a := mkpt 1 (0, 0, 0) :: mkpt 2 (1, 0, 0) :: nil in let b := mkpt 3 (0, 5, 0) :: mkpt 4 (0, 0, 7) :: nil in
  accurate (/ 2 ^ 53) binary64 /\ accurate_exp (/ 2 ^ 53) exp64 /\ within_range 8 a b /\ exists f t, fl_point_matrix_yukawa binary64 exp64 1 2 (Rows a) (Rows b) f t.
Proof.
  cbv zeta. split; [exact C64_binary64_is_accurate|]. split; [exact C79_exp64_is_accurate|]. split.
  - intros p q Hp Hq. cbn [In] in *. rewrite <- (sqrt_Rsqr 8) by lra. destruct Hp as [<-|[<-|[]]], Hq as [<-|[<-|[]]]; cbn [pp]; unfold vsub, vnorm; apply sqrt_le_1_alt; unfold Rsqr; lra.
  - apply (C79_results_exist _ (/ 2 ^ 53)); [lra|exact C64_binary64_is_accurate|]. intros p q Hp Hq E. cbn [rows In] in *.
    destruct Hp as [<-|[<-|[]]], Hq as [<-|[<-|[]]]; cbn [pp] in E; injection E; intros; lra.
Qed.
Print Assumptions C79_rounding.
Print Assumptions C79_binary64.
