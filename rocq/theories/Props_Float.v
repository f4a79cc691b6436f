(* C64: rounding errors of point_matrix_gravity. *)
From Coq Require Import Reals Lra Lia List Permutation.
From Flocq Require Import Core Relative.
From Coquelicot Require Import Coquelicot.
From Verif Require Import Glib GlibSpec GlibProofs FloatSpec FlGlib NewtonSpec Newton.
Open Scope R_scope.

Section Rounding.
Context (A : arith) (u : R) (HA : accurate u A).
Let h := 1 - u.
Lemma h_range : 3 / 4 <= h <= 1. Proof. destruct HA as (H & _). unfold h. lra. Qed.
Lemma hk_pos k : 0 < h ^ k. Proof. apply pow_lt. assert (H := h_range). lra. Qed.
Lemma hk_le1 k : h ^ k <= 1. Proof. assert (H := h_range). rewrite <- (pow1 k). apply pow_incr. lra. Qed.
Lemma hk_mono j k : (j <= k)%nat -> h ^ k <= h ^ j.
Proof. intros L. replace k with (j + (k - j))%nat by lia. rewrite pow_add. assert (H1 := hk_pos j). assert (H2 := hk_le1 (k - j)). nra. Qed.
Lemma ihk_ge1 k : 1 <= / h ^ k. Proof. rewrite <- Rinv_1. apply Rinv_le_contravar; [apply hk_pos|apply hk_le1]. Qed.
Lemma ihk_mono j k : (j <= k)%nat -> / h ^ j <= / h ^ k. Proof. intros L. apply Rinv_le_contravar; [apply hk_pos|now apply hk_mono]. Qed.
(* x is X up to k roundings *)
Definition fac (k : nat) (t : R) : Prop := h ^ k <= t <= / h ^ k.
Definition rel (k : nat) (x X : R) : Prop := exists t, x = X * t /\ fac k t.
Lemma fac_mono j k t : (j <= k)%nat -> fac j t -> fac k t.
Proof. intros L [H1 H2]. assert (G1 := hk_mono j k L). assert (G2 := ihk_mono j k L). split; lra. Qed.
Lemma fac_mult j k s t : fac j s -> fac k t -> fac (j + k) (s * t).
Proof.
  intros [H1 H2] [H3 H4]. assert (P1 := hk_pos j). assert (P2 := hk_pos k). unfold fac. rewrite pow_add, Rinv_mult. split; apply Rmult_le_compat; lra.
Qed.
Lemma fac_pos k t : fac k t -> 0 < t. Proof. intros [H _]. assert (P := hk_pos k). lra. Qed.
Lemma fac_inv k t : fac k t -> fac k (/ t).
Proof.
  intros F. assert (P := fac_pos k t F). destruct F as [H1 H2]. split.
  - rewrite <- (Rinv_inv (h ^ k)). apply Rinv_le_contravar; assumption.
  - apply Rinv_le_contravar; [apply hk_pos|assumption].
Qed.
Lemma fac_1 k : fac k 1. Proof. split; [apply hk_le1|apply ihk_ge1]. Qed.
Lemma fac_sqrt k t : fac k t -> fac k (sqrt t).
Proof.
  intros F. assert (P := fac_pos k t F). assert (S := sqrt_lt_R0 t P). assert (E := sqrt_sqrt t ltac:(lra)). destruct F as [H1 H2]. assert (L := hk_le1 k). assert (G := ihk_ge1 k). assert (Q := hk_pos k). set (s := sqrt t) in *. clearbody s. split.
  - destruct (Rle_dec s 1); nra.
  - destruct (Rle_dec s 1); nra.
Qed.
Lemma rel_mono j k x X : (j <= k)%nat -> rel j x X -> rel k x X.
Proof. intros L (t & E & F). exists t. split; [exact E|]. now apply (fac_mono j). Qed.
Lemma rel_refl x : rel 0 x x. Proof. exists 1. split; [ring|apply fac_1]. Qed.
Lemma rel_rnd0 x : rel 1 (rnd A x) x.
Proof.
  destruct HA as (Hu & Hr & _). assert (E := Hr x). destruct (Req_dec x 0) as [->|N].
  - exists 1. split; [|apply fac_1]. rewrite Rabs_R0, Rmult_0_r in E. assert (E0 := Rabs_pos (rnd A 0 - 0)). assert (E1 : Rabs (rnd A 0 - 0) = 0) by lra. apply Rabs_eq_0 in E1. lra.
  - exists (rnd A x / x). split; [field; exact N|]. assert (B : Rabs (rnd A x / x - 1) <= u).
    { replace (rnd A x / x - 1) with ((rnd A x - x) * / x) by (field; exact N). rewrite Rabs_mult, Rabs_inv. assert (P := Rabs_pos_lt x N). apply (Rmult_le_reg_r (Rabs x)); [exact P|].
      rewrite Rmult_assoc, Rinv_l, Rmult_1_r by lra. exact E. }
    apply Rabs_le_between in B. unfold fac. rewrite pow_1. assert (H := h_range). split; [unfold h; lra|]. apply (Rmult_le_reg_l h); [lra|]. rewrite Rinv_r by lra. unfold h in *. nra.
Qed.
Lemma rel_trans j k x y z : rel j x y -> rel k y z -> rel (j + k) x z.
Proof. intros (s & -> & F) (t & -> & G). exists (s * t). split; [ring|]. now apply fac_mult. Qed.
Lemma rel_rnd k x X : rel k x X -> rel (S k) (rnd A x) X.
Proof. intros H. change (S k) with (1 + k)%nat. exact (rel_trans _ _ _ _ _ (rel_rnd0 x) H). Qed.
Lemma rel_mult j k x X y Y : rel j x X -> rel k y Y -> rel (j + k) (x * y) (X * Y).
Proof. intros (s & -> & F) (t & -> & G). exists (s * t). split; [ring|]. now apply fac_mult. Qed.
Lemma rel_div j k x X y Y : Y <> 0 -> rel j x X -> rel k y Y -> rel (j + k) (x / y) (X / Y).
Proof.
  intros N (s & -> & F) (t & -> & G). assert (P := fac_pos _ _ G). exists (s * / t). split; [field; lra|]. apply fac_mult; [exact F|now apply fac_inv].
Qed.
Lemma rel_plus k x X y Y : 0 <= X -> 0 <= Y -> rel k x X -> rel k y Y -> rel k (x + y) (X + Y).
Proof.
  intros HX HY (s & -> & [F1 F2]) (t & -> & [G1 G2]). destruct (Req_dec (X + Y) 0) as [Z|N].
  - exists 1. assert (X = 0) by lra. assert (Y = 0) by lra. subst. split; [ring|apply fac_1].
  - exists ((X * s + Y * t) / (X + Y)). split; [field; exact N|]. assert (P : 0 < X + Y) by lra. split.
    + apply (Rmult_le_reg_r (X + Y)); [exact P|]. unfold Rdiv. rewrite Rmult_assoc, Rinv_l, Rmult_1_r by exact N. nra.
    + apply (Rmult_le_reg_r (X + Y)); [exact P|]. unfold Rdiv. rewrite Rmult_assoc, Rinv_l, Rmult_1_r by exact N. nra.
Qed.
Lemma rel_sqrt k x X : 0 <= X -> rel k x X -> rel k (sqrt x) (sqrt X).
Proof. intros HX (t & -> & F). exists (sqrt t). split; [apply sqrt_mult; [exact HX|left; now apply (fac_pos k)]|now apply fac_sqrt]. Qed.
Lemma rel_cube k x X : rel k x X -> rel (3 + (k + (k + k))) (cube A x) (X ^ 3).
Proof.
  intros H. assert (H3 : rel (k + (k + k)) (x ^ 3) (X ^ 3)). { replace (x ^ 3) with (x * (x * x)) by ring. replace (X ^ 3) with (X * (X * X)) by ring. now apply rel_mult; [|apply rel_mult]. }
  apply (rel_trans 3 _ _ (x ^ 3)); [|exact H3]. destruct HA as (Hu & _ & Hc). assert (E := Hc x). set (y := x ^ 3) in *. set (c := cube A x) in *. clearbody y c. destruct (Req_dec y 0) as [->|N].
  - exists 1. split; [|apply fac_1]. rewrite Rabs_R0, Rmult_0_r in E. assert (E0 := Rabs_pos (c - 0)). assert (E1 : Rabs (c - 0) = 0) by lra. apply Rabs_eq_0 in E1. lra.
  - exists (c / y). split; [field; exact N|]. assert (B : Rabs (c / y - 1) <= 2 * u).
    { replace (c / y - 1) with ((c - y) * / y) by (field; exact N). rewrite Rabs_mult, Rabs_inv. assert (P := Rabs_pos_lt y N). apply (Rmult_le_reg_r (Rabs y)); [exact P|].
      rewrite Rmult_assoc, Rinv_l, Rmult_1_r by lra. exact E. }
    apply Rabs_le_between in B. assert (Hh := h_range). assert (P := hk_pos 3). split.
    + unfold h. replace ((1 - u) ^ 3) with (1 - 2 * u - u * (1 - 3 * u + u * u)) by ring. assert (0 <= u * (1 - 3 * u + u * u)) by (apply Rmult_le_pos; nra). lra.
    + apply (Rmult_le_reg_l (h ^ 3)); [exact P|]. rewrite Rinv_r by lra. apply Rle_trans with (h ^ 3 * (1 + 2 * u)); [apply Rmult_le_compat_l; lra|]. unfold h. replace ((1 - u) ^ 3 * (1 + 2 * u)) with (1 - u * (1 + 3 * u - 5 * (u * u) + 2 * (u * u * u))) by ring.
      assert (0 <= u * (1 + 3 * u - 5 * (u * u) + 2 * (u * u * u))); [|lra]. apply Rmult_le_pos; [lra|]. assert (0 <= u * u) by nra. assert (u * u <= u) by nra. assert (0 <= u * u * u) by nra. nra.
Qed.
(* ---- sums with terms of either sign ---- *)
Definition close (k : nat) (x X B : R) : Prop := Rabs X <= B /\ Rabs (x - X) <= (/ h ^ k - 1) * B.
Lemma close_rel k x X : rel k x X -> close k x X (Rabs X).
Proof.
  intros (t & -> & [F1 F2]). split; [lra|]. replace (X * t - X) with (X * (t - 1)) by ring. rewrite Rabs_mult, Rmult_comm. apply Rmult_le_compat_r; [apply Rabs_pos|].
  assert (P := hk_pos k). assert (L := hk_le1 k). apply Rabs_le_between. split; [|lra]. assert (h ^ k * / h ^ k = 1) by (apply Rinv_r; lra). assert (G := ihk_ge1 k). nra.
Qed.
Lemma close_mono j k x X B : (j <= k)%nat -> close j x X B -> close k x X B.
Proof. intros L [H1 H2]. split; [exact H1|]. assert (G := ihk_mono j k L). assert (P := Rabs_pos X). nra. Qed.
Lemma close_plus k x X B y Y D : close k x X B -> close k y Y D -> close k (x + y) (X + Y) (B + D).
Proof.
  intros [H1 H2] [H3 H4]. split; [apply Rle_trans with (Rabs X + Rabs Y); [apply Rabs_triang|lra]|]. replace (x + y - (X + Y)) with ((x - X) + (y - Y)) by ring.
  apply Rle_trans with (Rabs (x - X) + Rabs (y - Y)); [apply Rabs_triang|lra].
Qed.
Lemma close_opp k x X B : close k x X B -> close k (- x) (- X) B.
Proof. intros [H1 H2]. split; [now rewrite Rabs_Ropp|]. replace (- x - - X) with (- (x - X)) by ring. now rewrite Rabs_Ropp. Qed.
Lemma close_rnd k x X B : close k x X B -> close (S k) (rnd A x) X B.
Proof.
  intros [H1 H2]. split; [exact H1|]. destruct HA as (Hu & Hr & _). assert (E := Hr x). assert (HX : Rabs x <= / h ^ k * B).
  { replace x with ((x - X) + X) by ring. apply Rle_trans with (Rabs (x - X) + Rabs X); [apply Rabs_triang|lra]. }
  assert (T : Rabs (rnd A x - X) <= u * (/ h ^ k * B) + (/ h ^ k - 1) * B).
  { replace (rnd A x - X) with ((rnd A x - x) + (x - X)) by ring. apply Rle_trans with (Rabs (rnd A x - x) + Rabs (x - X)); [apply Rabs_triang|]. apply Rplus_le_compat; [|exact H2]. apply Rle_trans with (u * Rabs x); [exact E|]. apply Rmult_le_compat_l; lra. }
  apply Rle_trans with (1 := T). cbn [pow]. rewrite Rinv_mult. assert (R := h_range). assert (Hi : 1 + u <= / h) by (apply (Rmult_le_reg_l h); [lra|rewrite Rinv_r by lra; unfold h in *; nra]).
  assert (G := ihk_ge1 k). assert (P := Rabs_pos X). assert (0 <= / h ^ k * B) by (apply Rmult_le_pos; lra). nra.
Qed.
Lemma close_mult k x X B y : close k x X B -> close k (y * x) (y * X) (Rabs y * B).
Proof.
  intros [H1 H2]. split; [rewrite Rabs_mult; apply Rmult_le_compat_l; [apply Rabs_pos|exact H1]|]. replace (y * x - y * X) with (y * (x - X)) by ring. rewrite Rabs_mult.
  replace ((/ h ^ k - 1) * (Rabs y * B)) with (Rabs y * ((/ h ^ k - 1) * B)) by ring. apply Rmult_le_compat_l; [apply Rabs_pos|exact H2].
Qed.

(* ---- sums and dot products, in any order ---- *)
Definition tot (l : list R) : R := lsr (fun x => x) l.
Definition tot_abs (l : list R) : R := lsr Rabs l.
Lemma tot_app l m : tot (l ++ m) = tot l + tot m.
Proof. unfold tot, lsr. induction l as [|x l IH]; cbn [app fold_right]; lra. Qed.
Lemma tot_abs_app l m : tot_abs (l ++ m) = tot_abs l + tot_abs m.
Proof. unfold tot_abs, lsr. induction l as [|x l IH]; cbn [app fold_right]; lra. Qed.
Lemma tot_perm l m : Permutation l m -> tot l = tot m.
Proof. unfold tot, lsr. induction 1; cbn [fold_right]; lra. Qed.
Lemma tot_abs_perm l m : Permutation l m -> tot_abs l = tot_abs m.
Proof. unfold tot_abs, lsr. induction 1; cbn [fold_right]; lra. Qed.
Lemma tot_pos l : List.Forall (fun x => 0 <= x) l -> 0 <= tot l.
Proof. unfold tot, lsr. induction 1; cbn [fold_right]; lra. Qed.
Lemma fsum_length l x : fsum A l x -> (1 <= length l)%nat.
Proof. induction 1; [cbn; lia|]. rewrite (Permutation_length H1), app_length. lia. Qed.
Lemma fsum_rel l x : fsum A l x -> forall k L, Forall2 (rel k) l L -> List.Forall (fun y => 0 <= y) L -> rel (k + length l - 1) x (tot L).
Proof.
  induction 1 as [x|l1 l2 l a b S1 IH1 S2 IH2 P]; intros k L H HL.
  - inversion H as [|? y ? ? Hy Hn]; subst. inversion Hn; subst. unfold tot, lsr. cbn [fold_right length]. rewrite Rplus_0_r. replace (k + 1 - 1)%nat with k by lia. exact Hy.
  - destruct (Permutation_Forall2 P H) as (L' & PL & H'). apply Forall2_app_inv_l in H'. destruct H' as (L1 & L2 & H1 & H2 & ->).
    rewrite (tot_perm _ _ PL), tot_app. assert (HL' : List.Forall (fun y => 0 <= y) (L1 ++ L2)) by exact (Permutation_Forall PL HL). apply Forall_app in HL'. destruct HL' as [P1 P2].
    assert (N1 := fsum_length _ _ S1). assert (N2 := fsum_length _ _ S2). rewrite (Permutation_length P), app_length. replace (k + (length l1 + length l2) - 1)%nat with (S (k + (length l1 + length l2) - 2)) by lia.
    apply rel_rnd, rel_plus; [now apply tot_pos|now apply tot_pos| |].
    + apply (rel_mono (k + length l1 - 1)); [lia|now apply IH1].
    + apply (rel_mono (k + length l2 - 1)); [lia|now apply IH2].
Qed.
Lemma fdot1_length l x : fdot1 A l x -> (1 <= length l)%nat.
Proof. induction 1; [cbn; lia| |]; [rewrite (Permutation_length H1), app_length; lia|rewrite (Permutation_length H0); cbn; lia]. Qed.
Lemma fdot1_close l x : fdot1 A l x -> forall k L, Forall2 (fun ab X => rel k (fst ab * snd ab) X) l L -> close (k + length l) x (tot L) (tot_abs L).
Proof.
  induction 1 as [a b|l1 l2 l x y S1 IH1 S2 IH2 P|l1 l a b x S1 IH1 P]; intros k L H.
  - inversion H as [|? X ? ? Hy Hn]; subst. inversion Hn; subst. unfold tot, tot_abs, lsr. cbn [fold_right length]. rewrite !Rplus_0_r. replace (k + 1)%nat with (S k) by lia. apply close_rel, rel_rnd. exact Hy.
  - destruct (Permutation_Forall2 P H) as (L' & PL & H'). apply Forall2_app_inv_l in H'. destruct H' as (L1 & L2 & H1 & H2 & ->).
    rewrite (tot_perm _ _ PL), (tot_abs_perm _ _ PL), tot_app, tot_abs_app. assert (N1 := fdot1_length _ _ S1). assert (N2 := fdot1_length _ _ S2). rewrite (Permutation_length P), app_length.
    replace (k + (length l1 + length l2))%nat with (S (k + (length l1 + length l2) - 1)) by lia. apply close_rnd, close_plus; [apply (close_mono (k + length l1)); [lia|now apply IH1]|apply (close_mono (k + length l2)); [lia|now apply IH2]].
  - destruct (Permutation_Forall2 P H) as (L' & PL & H'). inversion H' as [|? X ? L1 HX H1]; subst. rewrite (tot_perm _ _ PL), (tot_abs_perm _ _ PL), (Permutation_length P). cbn [length].
    change (tot (X :: L1)) with (X + tot L1). change (tot_abs (X :: L1)) with (Rabs X + tot_abs L1). replace (k + S (length l1))%nat with (S (k + length l1)) by lia.
    apply close_rnd, close_plus; [|now apply IH1]. apply (close_mono k); [lia|]. now apply close_rel.
Qed.
(* ---- the code ---- *)
Lemma sep_rel p q i : rel 1 (fl_sep A p q i) (co i (vsub (pp q) (pp p))).
Proof. unfold fl_sep. replace (co i (vsub (pp q) (pp p))) with (co i (pp q) - co i (pp p)); [apply rel_rnd0|]. destruct (pp p) as [[x y] z], (pp q) as [[x' y'] z'], i; reflexivity. Qed.
Lemma modulus_rel p q r : fl_modulus A p q r -> rel 6 r (vnorm (vsub (pp q) (pp p))).
Proof.
  intros (s & Hs & ->). apply rel_rnd. replace (vnorm (vsub (pp q) (pp p))) with (sqrt (tot (map (fun i => co i (vsub (pp q) (pp p)) * co i (vsub (pp q) (pp p))) (AX :: AY :: AZ :: nil)))).
  - apply rel_sqrt; [apply tot_pos; cbn [map]; repeat apply List.Forall_cons; [nra|nra|nra|apply List.Forall_nil]|]. apply (fsum_rel _ _ Hs 3).
    + cbn [map]. repeat apply Forall2_cons; [..|apply Forall2_nil]; apply (rel_rnd 2), (rel_mult 1 1); apply sep_rel.
    + cbn [map]. repeat apply List.Forall_cons; [nra|nra|nra|apply List.Forall_nil].
  - destruct (vsub (pp q) (pp p)) as [[x y] z]. unfold vnorm, tot, lsr. cbn [map fold_right co]. f_equal. ring.
Qed.
Lemma cube_ne0 x : x <> 0 -> cube A x <> 0.
Proof. intros N. destruct (rel_cube 0 x x (rel_refl x)) as (t & -> & F). assert (P := fac_pos _ _ F). apply Rmult_integral_contrapositive_currified; [now apply pow_nonzero|lra]. Qed.
Lemma weight_rel p q r : vnorm (vsub (pp q) (pp p)) <> 0 -> rel 6 r (vnorm (vsub (pp q) (pp p))) -> rel 25 (fl_weight A p q r) (BIG_G * pm p * pm q / vnorm (vsub (pp q) (pp p)) ^ 3).
Proof.
  intros N H. unfold fl_weight. apply (rel_rnd 24), (rel_div 3 21); [now apply pow_nonzero| |exact (rel_cube 6 _ _ H)].
  apply (rel_rnd 2), (rel_mult 2 0); [|apply rel_refl]. apply (rel_rnd 1), (rel_mult 1 0); [|apply rel_refl]. apply rel_rnd0.
Qed.
Lemma term_rel p q r i : fl_modulus A p q r -> r <> 0 -> vnorm (vsub (pp q) (pp p)) <> 0 /\ rel 26 (fl_sep A p q i * fl_weight A p q r) (co i (attraction p q)).
Proof.
  intros H N. assert (M := modulus_rel p q r H). assert (N' : vnorm (vsub (pp q) (pp p)) <> 0). { intros E. apply N. destruct M as (t & -> & _). rewrite E. ring. }
  split; [exact N'|]. replace (co i (attraction p q)) with (co i (vsub (pp q) (pp p)) * (BIG_G * pm p * pm q / vnorm (vsub (pp q) (pp p)) ^ 3)).
  - apply (rel_mult 1 25); [apply sep_rel|now apply weight_rel].
  - unfold attraction. cbv zeta. set (w := BIG_G * pm p * pm q / vnorm (vsub (pp q) (pp p)) ^ 3). clearbody w. destruct (vsub (pp q) (pp p)) as [[x y] z], i; unfold co, vscal; ring.
Qed.
Definition sumF (i : axis) (p : pt) (l : list pt) : R := lsr (fun q => co i (attraction p q)) l.
Definition absF (i : axis) (p : pt) (l : list pt) : R := lsr (fun q => Rabs (co i (attraction p q))) l.
Lemma gmmr2_close p b f : fl_gmmr2_array A p b f ->
  (forall q, In q (rows b) -> vnorm (vsub (pp q) (pp p)) <> 0) /\ forall i, close (26 + length (rows b)) (co i f) (sumF i p (rows b)) (absF i p (rows b)).
Proof.
  destruct b as [q|l]; cbn [fl_gmmr2_array rows length].
  - intros (r & H & N & E). split; [intros q' [<-|[]]; exact (proj1 (term_rel p q r AX H N))|]. intros i. rewrite E. unfold sumF, absF, lsr. cbn [fold_right]. rewrite !Rplus_0_r. change (26 + 1)%nat with (S 26). apply close_rel, rel_rnd. now apply term_rel.
  - intros (rs & H & E). split.
    + clear E. intros q Hq. induction H as [|x r l rs [H1 H2] H IH]; [destruct Hq|]. destruct Hq as [<-|Hq]; [exact (proj1 (term_rel p x r AX H1 H2))|now apply IH].
    + intros i. specialize (E i). destruct l as [|x l].
      * cbn [combine map fdot] in E. unfold sumF, absF, lsr. cbn [fold_right]. rewrite E. split; [rewrite Rabs_R0; lra|]. rewrite Rminus_0_r, Rabs_R0. lra.
      * set (L := x :: l) in *. assert (HD : fdot1 A (map (fun qr => (fl_sep A p (fst qr) i, fl_weight A p (fst qr) (snd qr))) (combine L rs)) (co i f)).
        { inversion H as [|? r ? rs' ? ? E1 E2]; subst. cbn [L combine map fdot] in E |- *. exact E. }
        clear E. assert (Len : length (map (fun qr => (fl_sep A p (fst qr) i, fl_weight A p (fst qr) (snd qr))) (combine L rs)) = length L). { rewrite map_length, combine_length. assert (G : length L = length rs) by (clear - H; induction H; cbn [length]; congruence). lia. }
        assert (C := fdot1_close _ _ HD 26 (map (fun q => co i (attraction p q)) L)). rewrite Len in C.
        replace (sumF i p L) with (tot (map (fun q => co i (attraction p q)) L)) by (unfold tot; now rewrite lsr_map). replace (absF i p L) with (tot_abs (map (fun q => co i (attraction p q)) L)) by (unfold tot_abs; now rewrite lsr_map).
        apply C. clear -H HA. clearbody L. induction H as [|q r L rs [H1 H2] H IH]; cbn [combine map]; [apply Forall2_nil|]. apply Forall2_cons; [|exact IH]. cbn [fst snd]. now apply term_rel.
Qed.
Lemma cross_close p b f t : fl_gmmr2_array A p b f -> fl_cross A (pp p) f t -> forall i,
  close (28 + length (rows b)) (co i t) (co (next i) (pp p) * sumF (next (next i)) p (rows b) - co (next (next i)) (pp p) * sumF (next i) p (rows b))
    (Rabs (co (next i) (pp p)) * absF (next (next i)) p (rows b) + Rabs (co (next (next i)) (pp p)) * absF (next i) p (rows b)).
Proof.
  intros H Ht i. rewrite Ht. destruct (gmmr2_close p b f H) as [_ C]. change (28 + length (rows b))%nat with (S (S (26 + length (rows b)))). unfold Rminus.
  apply close_rnd, close_plus; [|apply close_opp]; apply close_rnd, close_mult, C.
Qed.
Lemma close_0 k : close k 0 0 0.
Proof. split; [rewrite Rabs_R0; lra|]. rewrite Rminus_0_r, Rabs_R0. lra. Qed.
Definition sumT (i : axis) (p : pt) (l : list pt) : R := co (next i) (pp p) * sumF (next (next i)) p l - co (next (next i)) (pp p) * sumF (next i) p l.
Definition absT (i : axis) (p : pt) (l : list pt) : R := Rabs (co (next i) (pp p)) * absF (next (next i)) p l + Rabs (co (next (next i)) (pp p)) * absF (next i) p l.
Lemma loop_close b l acc out : fl_loop A b l acc out -> forall j XF BF XT BT,
  (forall i, close (26 + length (rows b) + j) (co i (fst acc)) (XF i) (BF i)) -> (forall i, close (28 + length (rows b) + j) (co i (snd acc)) (XT i) (BT i)) ->
  (forall p q, In p l -> In q (rows b) -> vnorm (vsub (pp q) (pp p)) <> 0) /\
  (forall i, close (26 + length (rows b) + j + length l) (co i (fst out)) (XF i + lsr (fun p => sumF i p (rows b)) l) (BF i + lsr (fun p => absF i p (rows b)) l)) /\
  (forall i, close (28 + length (rows b) + j + length l) (co i (snd out)) (XT i + lsr (fun p => sumT i p (rows b)) l) (BT i + lsr (fun p => absT i p (rows b)) l)).
Proof.
  induction 1 as [acc|p rest acc fK tK acc' out Hf Ht HF HT Hl IH]; intros j XF BF XT BT CF CT.
  - split; [intros p q []|]. unfold lsr. cbn [fold_right length]. split; intros i; rewrite !Rplus_0_r, Nat.add_0_r; auto.
  - destruct (gmmr2_close p b fK Hf) as [N C]. assert (D := cross_close p b fK tK Hf Ht).
    destruct (IH (S j) (fun i => XF i + sumF i p (rows b)) (fun i => BF i + absF i p (rows b)) (fun i => XT i + sumT i p (rows b)) (fun i => BT i + absT i p (rows b))) as (N' & C1 & C2).
    + intros i. rewrite HF. rewrite Nat.add_succ_r. apply close_rnd, close_plus; [apply CF|]. apply (close_mono (26 + length (rows b))); [lia|apply C].
    + intros i. rewrite HT. rewrite Nat.add_succ_r. apply close_rnd, close_plus; [apply CT|]. apply (close_mono (28 + length (rows b))); [lia|apply D].
    + split; [intros p' q [<-|Hp] Hq; [now apply N|now apply N']|]. cbn [length]. rewrite !Nat.add_succ_r, <- !Nat.add_succ_l in *. unfold lsr in *. cbn [fold_right].
      split; intros i; rewrite <- !Rplus_assoc.
      * replace (S (26 + length (rows b) + j + length rest)) with (26 + length (rows b) + S j + length rest)%nat by lia. apply C1.
      * replace (S (28 + length (rows b) + j + length rest)) with (28 + length (rows b) + S j + length rest)%nat by lia. apply C2.
Qed.
Lemma gravity_close a b f t : fl_point_matrix_gravity A a b f t ->
  (forall p q, In p (rows a) -> In q (rows b) -> vnorm (vsub (pp q) (pp p)) <> 0) /\
  (forall i, close (26 + length (rows a) + length (rows b)) (co i f) (lsr (fun p => sumF i p (rows b)) (rows a)) (lsr (fun p => absF i p (rows b)) (rows a))) /\
  (forall i, close (28 + length (rows a) + length (rows b)) (co i t) (lsr (fun p => sumT i p (rows b)) (rows a)) (lsr (fun p => absT i p (rows b)) (rows a))).
Proof.
  destruct a as [p|l]; cbn [fl_point_matrix_gravity rows length].
  - intros [Hf Ht]. destruct (gmmr2_close p b f Hf) as [N C]. assert (D := cross_close p b f t Hf Ht). split; [intros p' q [<-|[]]; apply N|].
    unfold lsr at 1 2 3 4. cbn [fold_right]. split; intros i; rewrite !Rplus_0_r; [apply (close_mono (26 + length (rows b))); [lia|apply C]|apply (close_mono (28 + length (rows b))); [lia|apply D]].
  - intros H. destruct (loop_close b l _ _ H 0 (fun _ => 0) (fun _ => 0) (fun _ => 0) (fun _ => 0)) as (N & C & D).
    + intros i. cbn [fst]. replace (co i v0) with 0 by now destruct i. apply close_0.
    + intros i. cbn [snd]. replace (co i v0) with 0 by now destruct i. apply close_0.
    + split; [exact N|]. split; intros i; [specialize (C i)|specialize (D i)]; rewrite !Rplus_0_l in *; [eapply close_mono; [|exact C]|eapply close_mono; [|exact D]]; lia.
Qed.
End Rounding.

(* ---- the exact values ---- *)
Lemma co_vadd i v w : co i (vadd v w) = co i v + co i w. Proof. destruct v as [[x y] z], w as [[x' y'] z'], i; reflexivity. Qed.
Lemma co_v0 i : co i v0 = 0. Proof. now destruct i. Qed.
Lemma co_vS {A} i (f : A -> vec) l : co i (vS f l) = lsr (fun x => co i (f x)) l.
Proof. unfold vS, lsr. induction l as [|x l IH]; cbn [fold_right]; [apply co_v0|]. now rewrite co_vadd, IH. Qed.
Lemma co_cross i v w : co i (vcross v w) = co (next i) v * co (next (next i)) w - co (next (next i)) v * co (next i) w.
Proof. destruct v as [[x y] z], w as [[x' y'] z'], i; reflexivity. Qed.
Lemma pf_attraction p q : pf wG p q = attraction p q. Proof. reflexivity. Qed.
Lemma exact_gravity a b : apart_all (rows a) (rows b) -> exists F T, point_matrix_gravity a b = Ok (F, T) /\
  (forall i, co i F = lsr (fun p => sumF i p (rows b)) (rows a)) /\ (forall i, co i T = lsr (fun p => sumT i p (rows b)) (rows a)).
Proof.
  intros H. rewrite gravity_spec. apply coincide_false in H. rewrite H. do 2 eexists. split; [reflexivity|]. split; intros i.
  - unfold totF. rewrite co_vS. apply lsr_ext. intros p _. rewrite co_vS. reflexivity.
  - unfold totT. rewrite co_vS. apply lsr_ext. intros p _. rewrite co_cross, !co_vS. reflexivity.
Qed.
Lemma lsr_plus {A} (f g : A -> R) l : lsr (fun x => f x + g x) l = lsr f l + lsr g l.
Proof. unfold lsr. induction l; cbn [fold_right]; lra. Qed.
Lemma apart_norm p q : vnorm (vsub (pp q) (pp p)) <> 0 -> apart p q.
Proof. intros N E. apply N. rewrite E. destruct (pp q) as [[x y] z]. unfold vsub, vnorm. replace ((x - x) ^ 2 + (y - y) ^ 2 + (z - z) ^ 2) with 0 by ring. apply sqrt_0. Qed.
Lemma norm_apart p q : apart p q -> vnorm (vsub (pp q) (pp p)) <> 0.
Proof.
  intros N E. apply N. destruct (pp p) as [[x y] z], (pp q) as [[x' y'] z']. unfold vsub, vnorm in E. apply sqrt3_0 in E. destruct E as (E1 & E2 & E3). replace x' with x by lra. replace y' with y by lra. now replace z' with z by lra.
Qed.

(* ---- C64 ---- *)
Theorem C64_rounding : forall A u a b f t, accurate u A -> fl_point_matrix_gravity A a b f t ->
  exists F T, point_matrix_gravity a b = Ok (F, T) /\ forall i,
    Rabs (co i f - co i F) <= after u (26 + length (rows a) + length (rows b)) * force_size i (rows a) (rows b) /\
    Rabs (co i t - co i T) <= after u (28 + length (rows a) + length (rows b)) * torque_size i (rows a) (rows b).
Proof.
  intros A u a b f t HA H. destruct (gravity_close A u HA a b f t H) as (N & C & D). destruct (exact_gravity a b) as (F & T & E & EF & ET).
  { intros p q Hp Hq. apply apart_norm. now apply N. }
  exists F, T. split; [exact E|]. intros i. rewrite EF, ET. split; [exact (proj2 (C i))|].
  assert (Z : torque_size i (rows a) (rows b) = lsr (fun p => absT i p (rows b)) (rows a)).
  { unfold torque_size. apply lsr_ext. intros p _. rewrite lsr_plus. unfold absT, absF. rewrite <- !lsr_scal. f_equal; apply lsr_ext; intros q _; apply Rabs_mult. }
  rewrite Z. exact (proj2 (D i)).
Qed.
(* the library does return such a result as soon as no two points coincide; it needs that *)
Lemma fsum3 A x y z : exists s, fsum A (x :: y :: z :: nil) s.
Proof.
  eexists. apply (fs_add A (x :: nil) (y :: z :: nil)); [apply fs_one| |apply Permutation_refl]. apply (fs_add A (y :: nil) (z :: nil)); [apply fs_one|apply fs_one|apply Permutation_refl].
Qed.
Lemma fl_modulus_ex A u p q : accurate u A -> apart p q -> exists r, fl_modulus A p q r /\ r <> 0.
Proof.
  intros HA H. destruct (fsum3 A (rnd A (fl_sep A p q AX * fl_sep A p q AX)) (rnd A (fl_sep A p q AY * fl_sep A p q AY)) (rnd A (fl_sep A p q AZ * fl_sep A p q AZ))) as (s & Hs).
  exists (rnd A (sqrt s)). assert (M : fl_modulus A p q (rnd A (sqrt s))) by (exists s; split; [exact Hs|reflexivity]). split; [exact M|].
  destruct (modulus_rel A u HA p q _ M) as (t & -> & F). assert (P := fac_pos A u HA _ _ F). apply Rmult_integral_contrapositive_currified; [now apply norm_apart|lra].
Qed.
Lemma fdot_ex A l : exists x, fdot A l x.
Proof.
  destruct l as [|[a b] l]; [exists 0; reflexivity|]. cbn [fdot]. revert a b. induction l as [|[c d] l IH]; intros a b; [eexists; apply fd_one|].
  destruct (IH c d) as (x & Hx). eexists. apply (fd_fma A ((c, d) :: l) _ a b x Hx). apply Permutation_refl.
Qed.
Lemma vec_ex (g : axis -> R) : exists v, forall i, co i v = g i.
Proof. exists (g AX, g AY, g AZ). now intros []. Qed.
Lemma gmmr2_ex A u p b : accurate u A -> (forall q, In q (rows b) -> apart p q) -> exists f, fl_gmmr2_array A p b f.
Proof.
  intros HA H. destruct b as [q|l]; cbn [fl_gmmr2_array rows] in *.
  - destruct (fl_modulus_ex A u p q HA (H q ltac:(now left))) as (r & Hr & N). destruct (vec_ex (fun i => rnd A (fl_sep A p q i * fl_weight A p q r))) as (f & Hf). exists f, r. now repeat split.
  - assert (R : exists rs, Forall2 (fun q r => fl_modulus A p q r /\ r <> 0) l rs).
    { induction l as [|q l IH]; [exists nil; apply Forall2_nil|]. destruct IH as (rs & Hrs); [intros; apply H; now right|]. destruct (fl_modulus_ex A u p q HA (H q ltac:(now left))) as (r & Hr). exists (r :: rs). now apply Forall2_cons. }
    destruct R as (rs & Hrs). set (g := fun i => map (fun qr => (fl_sep A p (fst qr) i, fl_weight A p (fst qr) (snd qr))) (combine l rs)).
    destruct (fdot_ex A (g AX)) as (x & Hx). destruct (fdot_ex A (g AY)) as (y & Hy). destruct (fdot_ex A (g AZ)) as (z & Hz). exists (x, y, z), rs. split; [exact Hrs|]. intros []; assumption.
Qed.
Lemma cross_ex A v w : exists c, fl_cross A v w c.
Proof. apply (vec_ex (fun i => rnd A (rnd A (co (next i) v * co (next (next i)) w) - rnd A (co (next (next i)) v * co (next i) w)))). Qed.
Theorem C64_results_exist : forall A u a b, accurate u A -> apart_all (rows a) (rows b) -> exists f t, fl_point_matrix_gravity A a b f t.
Proof.
  intros A u a b HA H. destruct a as [p|l]; cbn [fl_point_matrix_gravity rows] in *.
  - destruct (gmmr2_ex A u p b HA) as (f & Hf); [intros; apply H; [now left|assumption]|]. destruct (cross_ex A (pp p) f) as (t & Ht). now exists f, t.
  - assert (G : forall acc, exists out, fl_loop A b l acc out).
    { induction l as [|p l IH]; intros acc; [exists acc; apply fl_done|]. destruct (gmmr2_ex A u p b HA) as (f & Hf); [intros; apply H; [now left|assumption]|]. destruct (cross_ex A (pp p) f) as (t & Ht).
      destruct (vec_ex (fun i => rnd A (co i (fst acc) + co i f))) as (f' & Hf'). destruct (vec_ex (fun i => rnd A (co i (snd acc) + co i t))) as (t' & Ht').
      destruct (IH ltac:(intros p' q Hp Hq; apply H; [now right|assumption]) (f', t')) as (out & Ho). exists out. now apply (fl_step A b p l acc f t (f', t')). }
    destruct (G (v0, v0)) as ([f t] & Ho). now exists f, t.
Qed.
Theorem C64_coincident_points_have_none : forall A u a b f t p q, accurate u A -> In p (rows a) -> In q (rows b) -> pp p = pp q -> ~ fl_point_matrix_gravity A a b f t.
Proof.
  intros A u a b f t p q HA Hp Hq E H. destruct (gravity_close A u HA a b f t H) as (N & _). exact (apart_norm p q (N p q Hp Hq) E).
Qed.
(* the size of the bound *)
Theorem C64_size : forall u k, 0 <= u <= 1 / 4 -> INR k * u <= 1 / 2 -> 0 <= after u k <= 2 * INR k * u.
Proof.
  intros u k Hu Hk. unfold after. assert (B : 1 - INR k * u <= (1 - u) ^ k).
  { clear Hk. induction k as [|k IH].
    - cbn [INR pow]. lra.
    - rewrite S_INR.
      cbn [pow]. assert (P := pos_INR k).
      assert (Q : 0 <= INR k * u) by (apply Rmult_le_pos; lra).
      assert (P' : 0 < (1 - u) ^ k) by (apply pow_lt; lra).
      assert (G : (1 - u) * (1 - INR k * u) <= (1 - u) * (1 - u) ^ k) by (apply Rmult_le_compat_l; lra). assert (0 <= u * (INR k * u)) by (apply Rmult_le_pos; lra). lra. }
  assert (P : 0 < (1 - u) ^ k) by (apply pow_lt; lra). assert (L : (1 - u) ^ k <= 1 ^ k) by (apply pow_incr; lra). rewrite pow1 in L. assert (Q := pos_INR k). assert (0 <= INR k * u) by (apply Rmult_le_pos; lra). split.
  - assert (G := Rinv_le_contravar _ _ P L). rewrite Rinv_1 in G. lra.
  - apply (Rmult_le_reg_r ((1 - u) ^ k)); [exact P|]. rewrite Rmult_minus_distr_r, Rinv_l by lra. nra.
Qed.
(* relative accuracy when the contributions do not cancel *)
Theorem C64_no_cancellation : forall A u a b f t i, accurate u A -> fl_point_matrix_gravity A a b f t ->
  (forall p q, In p (rows a) -> In q (rows b) -> 0 <= co i (attraction p q)) ->
  exists F T, point_matrix_gravity a b = Ok (F, T) /\ Rabs (co i f - co i F) <= after u (26 + length (rows a) + length (rows b)) * co i F.
Proof.
  intros A u a b f t i HA H Hp. destruct (gravity_close A u HA a b f t H) as (N & C & D). destruct (exact_gravity a b) as (F & T & E & EF & ET).
  { intros p q Hp' Hq. apply apart_norm. now apply N. }
  exists F, T. split; [exact E|]. rewrite EF. destruct (C i) as [_ Ci]. replace (lsr (fun p => sumF i p (rows b)) (rows a)) with (lsr (fun p => absF i p (rows b)) (rows a)) at 2; [exact Ci|].
  apply lsr_ext. intros p Hp'. apply lsr_ext. intros q Hq. apply Rabs_pos_eq. now apply Hp.
Qed.
(* action and reaction cancel up to rounding *)
Theorem C64_third_law : forall A u a b f t f' t' i, accurate u A -> fl_point_matrix_gravity A a b f t -> fl_point_matrix_gravity A b a f' t' ->
  Rabs (co i f + co i f') <= 2 * after u (26 + length (rows a) + length (rows b)) * force_size i (rows a) (rows b).
Proof.
  intros A u a b f t f' t' i HA H H'. destruct (gravity_close A u HA a b f t H) as (N & C & _). destruct (gravity_close A u HA b a f' t' H') as (_ & C' & _).
  destruct (C i) as [_ E]. destruct (C' i) as [_ E'].
  assert (Anti : forall p q, co i (attraction q p) = - co i (attraction p q)).
  { intros p q. assert (G := pf_anti wG wG_sym p q). rewrite !pf_attraction in G. assert (V : forall v, co i (vopp v) = - co i v) by (intros [[x y] z]; destruct i; reflexivity). first [rewrite G, V; ring|rewrite G, V; reflexivity]. }
  assert (Sw : forall g : pt -> pt -> R, lsr (fun q => lsr (fun p => g p q) (rows a)) (rows b) = lsr (fun p => lsr (fun q => g p q) (rows b)) (rows a)).
  { intros g. generalize (rows a) (rows b). intros l m. induction l as [|p l IH]; unfold lsr in *; cbn [fold_right]. - induction m; cbn [fold_right]; lra. - rewrite <- IH. clear IH. induction m as [|q m IH]; cbn [fold_right]; lra. }
  assert (S1 : lsr (fun q => sumF i q (rows a)) (rows b) = - lsr (fun p => sumF i p (rows b)) (rows a)).
  { unfold sumF. rewrite (Sw (fun p q => co i (attraction q p))). replace (- lsr (fun p => lsr (fun q => co i (attraction p q)) (rows b)) (rows a)) with (-1 * lsr (fun p => lsr (fun q => co i (attraction p q)) (rows b)) (rows a)) by ring.
    rewrite <- lsr_scal. apply lsr_ext. intros p _. rewrite <- lsr_scal. apply lsr_ext. intros q _. rewrite Anti. ring. }
  assert (S2 : lsr (fun q => absF i q (rows a)) (rows b) = force_size i (rows a) (rows b)).
  { unfold absF, force_size. rewrite (Sw (fun p q => Rabs (co i (attraction q p)))). apply lsr_ext. intros p _. apply lsr_ext. intros q _. rewrite Anti. apply Rabs_Ropp. }
  rewrite S1, S2 in E'. change (lsr (fun p => absF i p (rows b)) (rows a)) with (force_size i (rows a) (rows b)) in E. replace (26 + length (rows b) + length (rows a))%nat with (26 + length (rows a) + length (rows b))%nat in E' by lia.
  unfold after. set (x := lsr (fun p => sumF i p (rows b)) (rows a)) in *. replace (co i f + co i f') with ((co i f - x) + (co i f' - - x)) by ring. apply Rle_trans with (1 := Rabs_triang _ _). lra.
Qed.
Lemma lsr_ge0 {X} (g : X -> R) l : (forall x, 0 <= g x) -> 0 <= lsr g l.
Proof. intros H. unfold lsr. induction l as [|x l IH]; cbn [fold_right]; [lra|]. assert (G := H x). lra. Qed.
(* ---- IEEE double precision, apart from overflow and underflow ---- *)
Definition binary64 : arith := mkarith (round radix2 (FLX_exp 53) ZnearestE) (fun x => round radix2 (FLX_exp 53) ZnearestE (x ^ 3)).
Lemma round_err x : Rabs (round radix2 (FLX_exp 53) ZnearestE x - x) <= / 2 ^ 53 * Rabs x.
Proof.
  assert (H := relative_error_N_FLX radix2 53 eq_refl (fun n => negb (Z.even n)) x). apply Rle_trans with (1 := H). apply Rmult_le_compat_r; [apply Rabs_pos|].
  apply Req_le. change (bpow radix2 (- (53) + 1)) with (/ IZR (Z.pow_pos 2 52)). rewrite <- Rinv_mult. f_equal. rewrite <- mult_IZR. rewrite pow_IZR. f_equal.
Qed.
Theorem C64_binary64_is_accurate : accurate (/ 2 ^ 53) binary64.
Proof.
  assert (U : 0 < / 2 ^ 53 <= 1 / 4). { split; [apply Rinv_0_lt_compat; apply pow_lt; lra|]. replace (1 / 4) with (/ 2 ^ 2) by field. apply Rinv_le_contravar; [apply pow_lt; lra|]. apply Rle_pow; [lra|lia]. }
  split; [lra|]. split; intros x; cbn [rnd cube binary64]; [apply round_err|]. apply Rle_trans with (1 := round_err (x ^ 3)). apply Rmult_le_compat_r; [apply Rabs_pos|lra].
Qed.
Theorem C64_binary64 : forall a b f t, (length (rows a) + length (rows b) <= 1000 * 1000)%nat -> fl_point_matrix_gravity binary64 a b f t ->
  exists F T, point_matrix_gravity a b = Ok (F, T) /\ forall i,
    Rabs (co i f - co i F) <= INR (26 + length (rows a) + length (rows b)) / 2 ^ 52 * force_size i (rows a) (rows b) /\
    Rabs (co i t - co i T) <= INR (28 + length (rows a) + length (rows b)) / 2 ^ 52 * torque_size i (rows a) (rows b).
Proof.
  intros a b f t Hn H. destruct (C64_rounding _ _ a b f t C64_binary64_is_accurate H) as (F & T & E & B). exists F, T. split; [exact E|]. intros i. destruct (B i) as [B1 B2].
  assert (Sz : forall k, (k <= 1000 * 1000 + 28)%nat -> after (/ 2 ^ 53) k <= INR k / 2 ^ 52).
  { intros k Hk. destruct (C64_size (/ 2 ^ 53) k) as [_ G].
    - destruct C64_binary64_is_accurate as [G _]. exact G.
    - apply (Rmult_le_reg_r (2 ^ 53)); [apply pow_lt; lra|]. rewrite Rmult_assoc, Rinv_l, Rmult_1_r by (apply pow_nonzero; lra). apply Rle_trans with (2 ^ 21).
      + rewrite INR_IZR_INZ, pow_IZR. apply IZR_le. change (Z.of_nat 2)%Z with 2%Z. lia.
      + replace (1 / 2 * 2 ^ 53) with (2 ^ 52) by (cbn [pow]; lra). apply Rle_pow; [lra|lia].
    - replace (INR k / 2 ^ 52) with (2 * INR k * / 2 ^ 53) by (replace (2 ^ 53) with (2 * 2 ^ 52) by (cbn [pow]; lra); field; apply pow_nonzero; lra). exact G. }
  assert (P1 : 0 <= force_size i (rows a) (rows b)) by (apply lsr_ge0; intros p; apply lsr_ge0; intros q; apply Rabs_pos).
  assert (P2 : 0 <= torque_size i (rows a) (rows b)) by (apply lsr_ge0; intros p; apply lsr_ge0; intros q; apply Rplus_le_le_0_compat; apply Rabs_pos).
  split; [apply Rle_trans with (1 := B1)|apply Rle_trans with (1 := B2)]; apply Rmult_le_compat_r; try assumption; apply Sz; lia.
Qed.
(* the hypotheses are met: two points on each side, double precision *)
Example C64_case : exists f t, fl_point_matrix_gravity binary64 (Rows (mkpt 1 (0, 0, 0) :: mkpt 2 (1, 0, 0) :: nil)) (Rows (mkpt 3 (0, 5, 0) :: mkpt 4 (0, 0, 7) :: nil)) f t.
Proof.
  apply (C64_results_exist _ _ _ _ C64_binary64_is_accurate). intros p q Hp Hq E. cbn [rows In] in *.
  destruct Hp as [<-|[<-|[]]], Hq as [<-|[<-|[]]]; cbn [pp] in E; injection E; intros; lra.
Qed.
Print Assumptions C64_rounding.
Print Assumptions C64_binary64.
Print Assumptions C64_third_law.
