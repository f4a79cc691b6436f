(* Gauss-Legendre rules with many points spread their weights evenly: the weights of the points up to a add up to nearly a + 1.
   Step functions are approximated by polynomials, integrals of (1 - t^2/9)^m. *)
From Coq Require Import Reals Lra Lia List.
From Coquelicot Require Import Coquelicot.
From Verif Require Import LipInt GLSpec Gauss.
From Verif Require Irreg Refine.
Open Scope R_scope.

Lemma peval_prim l k : exists F, pol (k + length l + 1) F /\ forall x : R, is_derive F x (x ^ k * peval l x).
Proof.
  revert k. induction l as [|a l IH]; intros k.
  - exists (fun _ => 0). split; [apply pol_zero|]. intros x. cbn [peval]. rewrite Rmult_0_r. apply (is_derive_const 0 x).
  - destruct (IH (S k)) as (F & P & D). exists (fun x => a / INR (S k) * x ^ S k + F x). split.
    + cbn [length]. replace (k + S (length l) + 1)%nat with (S k + length l + 1)%nat by lia. apply pol_add; [|exact P]. apply (pol_le (S (S k))); [lia|]. apply pol_scal, pol_pow.
    + intros x. cbn [peval]. assert (K : INR (S k) <> 0) by (apply not_0_INR; lia).
      assert (D0 : is_derive (fun x : R => a / INR (S k) * x ^ S k) x (a * x ^ k)).
      { replace (a * x ^ k) with (a / INR (S k) * (INR (S k) * 1 * x ^ Nat.pred (S k))) by (cbn [Nat.pred]; field; exact K). apply (is_derive_scal (fun x : R => x ^ S k) x (a / INR (S k))). apply (is_derive_pow (fun x : R => x) (S k) x 1). apply (is_derive_id x). }
      replace (x ^ k * (a + x * peval l x)) with (a * x ^ k + x ^ S k * peval l x) by (cbn [pow]; ring). exact (is_derive_plus (V := R_NormedModule) _ F x _ _ D0 (D x)).
Qed.
Lemma pol_prim n f : pol n f -> exists F, pol (S n) F /\ forall x : R, is_derive F x (f x).
Proof.
  intros (l & L & E). destruct (peval_prim l 0) as (F & P & D). exists F. split; [now replace (S n) with (0 + length l + 1)%nat by lia|]. intros x. rewrite E. specialize (D x). cbn [pow] in D. now rewrite Rmult_1_l in D.
Qed.
Lemma pol_shift n f b : pol n f -> pol n (fun x => f (x - b)).
Proof.
  intros (l & <- & E). apply (pol_ext _ (fun x => peval l (x - b))); [|intros x; now rewrite E]. clear E f. induction l as [|a l IH]; [apply (pol_zero 0)|].
  cbn [length peval]. apply (pol_ext _ (fun x => a + (x - b) * peval l (x - b))); [|reflexivity]. apply (pol_ext _ (fun x => (fun _ => a) x + (fun x => (x - b) * peval l (x - b)) x)); [|reflexivity]. apply pol_add; [apply (pol_le 1); [lia|apply pol_const]|]. now apply pol_lin.
Qed.

(* ---- polynomial steps ---- *)
Section Landau.
Variable m : nat.
Hypothesis Hm : (0 < m)%nat.
Definition ker (t : R) : R := (1 - t ^ 2 / 9) ^ m.
Lemma ker_pol : exists n, pol n ker.
Proof.
  unfold ker. clear Hm. induction m as [|k (n & IH)]; [exists 1%nat; apply (pol_const 1)|]. exists (3 + n)%nat. apply (pol_ext _ (fun t => (1 - t ^ 2 / 9) * (1 - t ^ 2 / 9) ^ k)); [|reflexivity]. apply pol_mul; [|exact IH].
  apply (pol_ext _ (fun t => (fun _ => 1) t - / 9 * t ^ 2)); [|intros t; field]. apply pol_sub; [apply (pol_le 1); [lia|apply (pol_const 1)]|apply pol_scal, (pol_pow 2)].
Qed.
Lemma ker_cont t : continuous ker t. Proof. destruct ker_pol as (n & P). exact (pol_cont n ker t P). Qed.
Lemma ker_int a b : ex_RInt ker a b. Proof. apply (ex_RInt_continuous (V := R_CompleteNormedModule)). intros t _. apply ker_cont. Qed.
Lemma base01 t : -3 <= t <= 3 -> 0 <= 1 - t ^ 2 / 9 <= 1. Proof. intros H. split; nra. Qed.
Lemma ker01 t : -3 <= t <= 3 -> 0 <= ker t <= 1.
Proof. intros H. assert (B := base01 t H). unfold ker. split; [apply pow_le; lra|]. apply Rle_trans with (1 ^ m); [apply pow_incr; exact B|rewrite pow1; lra]. Qed.
Lemma bernoulli x k : 0 <= x <= 1 -> 1 - INR k * x <= (1 - x) ^ k.
Proof. intros H. induction k as [|k IH]; [cbn; lra|]. rewrite S_INR. cbn [pow]. assert (0 <= INR k) by apply pos_INR. assert (Q : (1 - x) * (1 - INR k * x) <= (1 - x) * (1 - x) ^ k) by (apply Rmult_le_compat_l; lra). assert (0 <= INR k * x * x) by (apply Rmult_le_pos; [apply Rmult_le_pos|]; lra). nra. Qed.
Definition pr (u : R) : R := RInt ker (-3) u.
Lemma pr_split u v : pr u + RInt ker u v = pr v. Proof. apply (RInt_Chasles (V := R_CompleteNormedModule) ker (-3) u v); apply ker_int. Qed.
Lemma mass_ge0 u v : -3 <= u <= v -> v <= 3 -> 0 <= RInt ker u v.
Proof. intros H K. apply RInt_ge_0; [lra|apply ker_int|]. intros t Ht. apply ker01. lra. Qed.
Lemma mass_le u v c : -3 <= u <= v -> v <= 3 -> (forall t, u <= t <= v -> ker t <= c) -> RInt ker u v <= (v - u) * c.
Proof.
  intros H K B. assert (E : RInt (fun _ => c) u v = (v - u) * c) by (rewrite (RInt_const (V := R_CompleteNormedModule)); reflexivity). rewrite <- E. apply RInt_le; [lra|apply ker_int|apply (ex_RInt_const (V := R_NormedModule))|]. intros t Ht. apply B. lra.
Qed.
Definition tot : R := pr 3.
Lemma tot_ge : / (2 * INR m) <= tot.
Proof.
  assert (M : 1 <= INR m) by (change 1 with (INR 1); apply le_INR; lia). assert (I : 0 < / INR m <= 1) by (split; [apply Rinv_0_lt_compat; lra|rewrite <- Rinv_1; apply Rinv_le_contravar; lra]).
  unfold tot. rewrite <- (pr_split (/ INR m) 3), <- (pr_split 0 (/ INR m)). assert (A := mass_ge0 (-3) 0 ltac:(lra) ltac:(lra)). assert (B := mass_ge0 (/ INR m) 3 ltac:(lra) ltac:(lra)). fold (pr 0) in A.
  assert (C : / (2 * INR m) <= RInt ker 0 (/ INR m)); [|lra].
  assert (E : RInt (fun _ => / 2) 0 (/ INR m) = / (2 * INR m)) by (rewrite (RInt_const (V := R_CompleteNormedModule)); change ((/ INR m - 0) * / 2 = / (2 * INR m)); field; lra). rewrite <- E.
  apply RInt_le; [lra|apply (ex_RInt_const (V := R_NormedModule))|apply ker_int|]. intros t Ht. unfold ker. assert (Q := bernoulli (t ^ 2 / 9) m ltac:(split; nra)). eapply Rle_trans; [|exact Q].
  assert (INR m * t <= 1). { apply (Rmult_le_reg_r (/ INR m)); [lra|]. rewrite Rmult_1_l. rewrite Rmult_comm, <- Rmult_assoc, Rinv_l by lra. lra. } assert (0 <= t * (INR m * t) <= 1) by (split; [apply Rmult_le_pos; [lra|apply Rmult_le_pos; lra]|nra]). nra.
Qed.
Lemma tot_pos : 0 < tot.
Proof. assert (Q := tot_ge). assert (M : 0 < INR m) by (apply lt_0_INR; exact Hm). assert (0 < / (2 * INR m)) by (apply Rinv_0_lt_compat; lra). lra. Qed.
Definition step (u : R) : R := pr u / tot.
Lemma step_pol : exists n, forall b, pol n (fun x => step (x - b)).
Proof.
  destruct ker_pol as (n & P). destruct (pol_prim n ker P) as (F & PF & D). exists (S n). intros b. apply (pol_shift (S n) step b). apply (pol_ext _ (fun u => / tot * (F u - F (-3)))).
  - apply pol_scal. apply (pol_sub _ F (fun _ => F (-3)) PF). apply (pol_le 1); [lia|apply pol_const].
  - intros u. unfold step, pr. assert (E : RInt ker (-3) u = F u - F (-3)). { apply is_RInt_unique. apply (is_RInt_derive F ker); [intros; apply D|intros; apply ker_cont]. } rewrite E. unfold Rdiv. ring.
Qed.
Lemma step01 u : -3 <= u <= 3 -> 0 <= step u <= 1.
Proof.
  intros H. assert (T := tot_pos). assert (A := mass_ge0 (-3) u ltac:(lra) ltac:(lra)). assert (B := mass_ge0 u 3 ltac:(lra) ltac:(lra)). assert (E := pr_split u 3). fold (pr u) in A. fold tot in E.
  unfold step. split; [apply Rdiv_le_0_compat; lra|]. apply (Rmult_le_reg_r tot); [exact T|]. unfold Rdiv. rewrite Rmult_assoc, Rinv_l by lra. lra.
Qed.
Lemma ker_small eta t : 0 < eta -> eta <= Rabs t -> -3 <= t <= 3 -> ker t <= (1 - eta ^ 2 / 9) ^ m.
Proof. intros He Ht H. assert (B := base01 t H). unfold ker. apply pow_incr. split; [lra|]. rewrite <- (pow2_abs t). assert (eta ^ 2 <= Rabs t ^ 2) by (apply pow_incr; lra). lra. Qed.
Lemma tail_small u v eta : 0 < eta -> -3 <= u <= v -> v <= 3 -> (forall t, u <= t <= v -> eta <= Rabs t) -> RInt ker u v / tot <= 12 * INR m * (1 - eta ^ 2 / 9) ^ m.
Proof.
  intros He H K B. assert (T := tot_ge). assert (TP := tot_pos). assert (M : 0 < INR m) by (apply lt_0_INR; exact Hm).
  assert (Q : RInt ker u v <= 6 * (1 - eta ^ 2 / 9) ^ m).
  { assert (P : 0 <= (1 - eta ^ 2 / 9) ^ m). { assert (E3 := B u ltac:(lra)). assert (Rabs u <= 3) by (apply Rabs_le; lra). apply pow_le. nra. }
    eapply Rle_trans; [apply (mass_le u v ((1 - eta ^ 2 / 9) ^ m)); try assumption; intros t Ht; apply ker_small; [exact He|now apply B|lra]|]. apply Rmult_le_compat_r; lra. }
  assert (Z := mass_ge0 u v H K). assert (I2 : / tot <= 2 * INR m) by (rewrite <- (Rinv_inv (2 * INR m)); apply Rinv_le_contravar; [apply Rinv_0_lt_compat; lra|exact T]). assert (I0 : 0 < / tot) by (apply Rinv_0_lt_compat; exact TP).
  unfold Rdiv. apply Rle_trans with (6 * (1 - eta ^ 2 / 9) ^ m * (2 * INR m)); [|right; unfold Rdiv; ring]. apply Rmult_le_compat; lra.
Qed.
End Landau.

(* polynomials that go from near 0 to near 1 within eta of b *)
Theorem steps eta eps : 0 < eta <= 1 -> 0 < eps -> exists n (H : R -> R), (forall b, pol n (fun x => H (x - b))) /\
  forall u, -3 <= u <= 3 -> 0 <= H u <= 1 /\ (u <= - eta -> H u <= eps) /\ (eta <= u -> 1 - eps <= H u).
Proof.
  intros He Hp. set (q := 1 - eta ^ 2 / 9). assert (Hq : 0 <= q < 1) by (unfold q; split; nra). assert (L := Irreg.poly_geom_lim 1 q Hq). apply is_lim_seq_spec in L. assert (Hd : 0 < eps / 12) by lra.
  destruct (L (mkposreal _ Hd)) as (N & HL). set (m := S N). specialize (HL m ltac:(unfold m; lia)). cbn [pos] in HL. rewrite Rminus_0_r, pow_1 in HL. assert (Hm : (0 < m)%nat) by (unfold m; lia).
  destruct (step_pol m Hm) as (d & P). exists d, (step m). split; [exact P|]. assert (PQ := pow_le q m (proj1 Hq)).
  assert (SM : 12 * INR m * q ^ m <= eps). { assert (A := Rle_abs (INR (S m) * q ^ m)). rewrite S_INR in *. assert (0 <= INR m) by apply pos_INR. nra. }
  intros u Hu. split; [exact (step01 m Hm u Hu)|]. assert (TP := tot_pos m Hm). split; intros E.
  - unfold step, pr. eapply Rle_trans; [apply (tail_small m Hm (-3) u eta); try lra|exact SM]. intros t Ht. rewrite Rabs_left1; lra.
  - assert (S' := pr_split m u 3). fold (tot m) in S'. assert (K : 1 - step m u = RInt (ker m) u 3 / tot m) by (replace (RInt (ker m) u 3) with (tot m - pr m u) by lra; unfold step; field; lra).
    assert (Z : RInt (ker m) u 3 / tot m <= eps) by (eapply Rle_trans; [apply (tail_small m Hm u 3 eta); try lra|exact SM]; intros t Ht; rewrite Rabs_pos_eq; lra). lra.
Qed.

(* ---- sums over a rule ---- *)
Lemma quad_le r f g : (forall p, In p r -> 0 < snd p) -> (forall p, In p r -> f (fst p) <= g (fst p)) -> quad r f <= quad r g.
Proof.
  intros W H. unfold quad. induction r as [|p r IH]; cbn; [lra|]. assert (A := H p (or_introl eq_refl)). assert (B := W p (or_introl eq_refl)). assert (C := IH ltac:(intros; apply W; now right) ltac:(intros; apply H; now right)).
  apply Rplus_le_compat; [apply Rmult_le_compat_l; lra|exact C].
Qed.
Lemma quad_one n r : (0 < n)%nat -> gauss_rule n r -> quad r (fun _ => 1) = 2.
Proof.
  intros Hn G. assert (Q := gr_exact n r G 0 ltac:(lia)). assert (E := is_RInt_unique _ _ _ _ Q). rewrite (quad_ext r (fun _ => 1) (fun x => x ^ 0)) by reflexivity. rewrite <- E. rewrite (RInt_ext _ (fun _ => 1)) by reflexivity.
  rewrite (RInt_const (V := R_CompleteNormedModule)). change ((1 - -1) * 1 = 2). ring.
Qed.
(* the indicator of (-infinity, a) or of (-infinity, a] *)
Definition below (s : R -> bool) (a : R) : Prop := (forall t, s t = true -> t <= a) /\ (forall t, t < a -> s t = true).
Notation chi := Refine.chi.
Theorem gauss_even delta : 0 < delta -> exists N, forall n r a s, (N <= n)%nat -> gauss_rule n r -> -1 <= a <= 1 -> below s a -> Rabs (quad r (fun t => chi (s t)) - (a + 1)) <= delta.
Proof.
  intros Hd. set (eta := Rmin (delta / 8) (1 / 8)). assert (He : 0 < eta) by (unfold eta; apply Rmin_pos; lra). assert (He1 := Rmin_l (delta / 8) (1 / 8)). assert (He2 := Rmin_r (delta / 8) (1 / 8)). fold eta in He1, He2.
  destruct (steps eta eta ltac:(lra) He) as (D & H & PH & HH). exists (S D). intros n r a s Hn G Ha (S1 & S2).
  assert (W : forall p, In p r -> 0 < snd p) by (intros p Hp; apply (gr_in n r G p Hp)). assert (IN : forall p, In p r -> -1 < fst p < 1) by (intros p Hp; apply (gr_in n r G p Hp)).
  assert (Q1 := quad_one n r ltac:(lia) G).
  assert (EX : forall b, is_RInt (fun x => 1 - H (x - b)) (-1) 1 (quad r (fun x => 1 - H (x - b)))).
  { intros b. apply (gauss_pol n r (fun x => 1 - H (x - b)) G). apply (pol_le (S D)); [lia|]. apply (pol_sub (S D) (fun _ => 1) (fun x => H (x - b))); [apply (pol_le 1); [lia|apply pol_const]|apply (pol_le D); [lia|apply PH]]. }
  assert (EXi : forall b u v, ex_RInt (fun x => 1 - H (x - b)) u v).
  { intros b u v. apply (ex_RInt_continuous (V := R_CompleteNormedModule)). intros t _. apply (pol_cont (S D)). apply (pol_sub (S D) (fun _ => 1) (fun x => H (x - b))); [apply (pol_le 1); [lia|apply pol_const]|apply (pol_le D); [lia|apply PH]]. }
  assert (CST : forall c u v, RInt (fun _ : R => c) u v = (v - u) * c) by (intros; rewrite (RInt_const (V := R_CompleteNormedModule)); reflexivity).
  assert (UP : forall b u v c, -1 <= u <= v -> v <= 1 -> (forall x, u <= x <= v -> 1 - H (x - b) <= c) -> RInt (fun x => 1 - H (x - b)) u v <= (v - u) * c).
  { intros b u v c Hu Hv Hc. rewrite <- CST. apply RInt_le; [lra|apply EXi|apply (ex_RInt_const (V := R_NormedModule))|]. intros x Hx. apply Hc. lra. }
  assert (LO : forall b u v c, -1 <= u <= v -> v <= 1 -> (forall x, u <= x <= v -> c <= 1 - H (x - b)) -> (v - u) * c <= RInt (fun x => 1 - H (x - b)) u v).
  { intros b u v c Hu Hv Hc. rewrite <- CST. apply RInt_le; [lra|apply (ex_RInt_const (V := R_NormedModule))|apply EXi|]. intros x Hx. apply Hc. lra. }
  assert (CH : forall b u, RInt (fun x => 1 - H (x - b)) (-1) u + RInt (fun x => 1 - H (x - b)) u 1 = RInt (fun x => 1 - H (x - b)) (-1) 1) by (intros b u; apply (RInt_Chasles (V := R_CompleteNormedModule)); apply EXi).
  apply Rabs_le_between. split.
  - (* from below *)
    assert (B1 : quad r (fun x => 1 - H (x - (a - eta))) <= quad r (fun t => chi (s t) + eta * 1)).
    { apply quad_le; [exact W|]. intros p Hp. specialize (IN p Hp). set (t := fst p) in *. destruct (HH (t - (a - eta)) ltac:(lra)) as (A1 & _ & A3). destruct (s t) eqn:E; cbn; [lra|].
      assert (a <= t) by (destruct (Rle_lt_dec a t); [assumption|rewrite S2 in E by assumption; discriminate]). specialize (A3 ltac:(lra)). lra. }
    rewrite quad_add, quad_scal, Q1 in B1. rewrite <- (is_RInt_unique _ _ _ _ (EX (a - eta))) in B1.
    assert (B2 : a + 1 - 2 * eta - 2 * eta <= RInt (fun x => 1 - H (x - (a - eta))) (-1) 1); [|lra].
    destruct (Rle_lt_dec (a - 2 * eta) (-1)) as [h|h].
    + assert (Z := LO (a - eta) (-1) 1 0 ltac:(lra) ltac:(lra)). rewrite Rmult_0_r in Z. assert (0 <= RInt (fun x => 1 - H (x - (a - eta))) (-1) 1); [|lra]. apply Z. intros x Hx. destruct (HH (x - (a - eta)) ltac:(lra)) as (A1 & _). lra.
    + rewrite <- (CH (a - eta) (a - 2 * eta)). assert (Z1 := LO (a - eta) (-1) (a - 2 * eta) (1 - eta) ltac:(lra) ltac:(lra)). assert (Z2 := LO (a - eta) (a - 2 * eta) 1 0 ltac:(lra) ltac:(lra)). rewrite Rmult_0_r in Z2.
      assert (Y1 : (a - 2 * eta - -1) * (1 - eta) <= RInt (fun x => 1 - H (x - (a - eta))) (-1) (a - 2 * eta)) by (apply Z1; intros x Hx; destruct (HH (x - (a - eta)) ltac:(lra)) as (_ & A2 & _); specialize (A2 ltac:(lra)); lra).
      assert (Y2 : 0 <= RInt (fun x => 1 - H (x - (a - eta))) (a - 2 * eta) 1) by (apply Z2; intros x Hx; destruct (HH (x - (a - eta)) ltac:(lra)) as (A1 & _); lra). nra.
  - assert (B1 : quad r (fun t => chi (s t)) <= quad r (fun x => (1 - H (x - (a + eta))) + eta * 1)).
    { apply quad_le; [exact W|]. intros p Hp. specialize (IN p Hp). set (t := fst p) in *. destruct (HH (t - (a + eta)) ltac:(lra)) as (A1 & A2 & _). destruct (s t) eqn:E; cbn; [|lra]. specialize (S1 t E). specialize (A2 ltac:(lra)). lra. }
    rewrite quad_add, quad_scal, Q1 in B1. rewrite <- (is_RInt_unique _ _ _ _ (EX (a + eta))) in B1.
    assert (B2 : RInt (fun x => 1 - H (x - (a + eta))) (-1) 1 <= a + 1 + 2 * eta + 2 * eta); [|lra].
    assert (O1 : forall x, -1 <= x <= 1 -> 1 - H (x - (a + eta)) <= 1) by (intros x Hx; destruct (HH (x - (a + eta)) ltac:(lra)) as (A1 & _); lra).
    destruct (Rle_lt_dec 1 (a + 2 * eta)) as [h|h].
    + assert (Z := UP (a + eta) (-1) 1 1 ltac:(lra) ltac:(lra) O1). lra.
    + rewrite <- (CH (a + eta) (a + 2 * eta)). assert (Z1 := UP (a + eta) (-1) (a + 2 * eta) 1 ltac:(lra) ltac:(lra) ltac:(intros; apply O1; lra)). assert (Z2 := UP (a + eta) (a + 2 * eta) 1 eta ltac:(lra) ltac:(lra)).
      assert (Y2 : RInt (fun x => 1 - H (x - (a + eta))) (a + 2 * eta) 1 <= (1 - (a + 2 * eta)) * eta) by (apply Z2; intros x Hx; destruct (HH (x - (a + eta)) ltac:(lra)) as (_ & _ & A3); specialize (A3 ltac:(lra)); lra). nra.
Qed.
