(* Gauss-Legendre rules exist and are unique, for every number of points (used for C41) *)
From Coq Require Import Reals Lra Lia List Sorting Arith.
From Coquelicot Require Import Coquelicot.
From Verif Require Import Legendre GLSpec.
Open Scope R_scope.

(* ---------- polynomials ---------- *)
Fixpoint peval (l : list R) (x : R) : R := match l with nil => 0 | a :: l' => a + x * peval l' x end.
(* f is a polynomial with n coefficients (degree below n) *)
Definition pol (n : nat) (f : R -> R) : Prop := exists l, length l = n /\ forall x, f x = peval l x.
Lemma pol_ext n f g : pol n f -> (forall x, f x = g x) -> pol n g.
Proof. intros (l & H & E) G. exists l. split; [easy|]. intros x. now rewrite <- G. Qed.
Lemma peval_zero n x : peval (repeat 0 n) x = 0.
Proof. induction n; cbn; [easy|]. rewrite IHn. ring. Qed.
Lemma pol_zero n : pol n (fun _ => 0).
Proof. exists (repeat 0 n). split; [apply repeat_length|]. intros x. now rewrite peval_zero. Qed.
Lemma pol_cons n f (a : R) : pol n f -> pol (S n) (fun x => a + x * f x).
Proof. intros (l & H & E). exists (a :: l). split; [cbn; lia|]. intros x. cbn. now rewrite E. Qed.
Lemma pol_uncons n f : pol (S n) f -> exists a g, pol n g /\ forall x, f x = a + x * g x.
Proof.
  intros ([|a l] & H & E); [easy|]. exists a, (peval l). split; [|easy]. exists l. split; [cbn in H; lia|easy].
Qed.
Lemma pol_0 f : pol 0 f -> forall x, f x = 0.
Proof. intros (l & H & E) x. destruct l; [|easy]. apply E. Qed.
Lemma pol_add n f g : pol n f -> pol n g -> pol n (fun x => f x + g x).
Proof.
  revert f g. induction n as [|n IH]; intros f g Hf Hg.
  - apply pol_ext with (fun _ => 0); [apply pol_zero|]. intros x. rewrite (pol_0 f), (pol_0 g) by easy. ring.
  - destruct (pol_uncons n f Hf) as (a & f1 & H1 & E1). destruct (pol_uncons n g Hg) as (b & g1 & H2 & E2).
    apply pol_ext with (fun x => (a + b) + x * (f1 x + g1 x)); [apply pol_cons; now apply IH|].
    intros x. rewrite E1, E2. ring.
Qed.
Lemma pol_scal n c f : pol n f -> pol n (fun x => c * f x).
Proof.
  revert f. induction n as [|n IH]; intros f Hf.
  - apply pol_ext with (fun _ => 0); [apply pol_zero|]. intros x. rewrite (pol_0 f) by easy. ring.
  - destruct (pol_uncons n f Hf) as (a & f1 & H1 & E1).
    apply pol_ext with (fun x => (c * a) + x * (c * f1 x)); [apply pol_cons; now apply IH|].
    intros x. rewrite E1. ring.
Qed.
Lemma pol_sub n f g : pol n f -> pol n g -> pol n (fun x => f x - g x).
Proof.
  intros Hf Hg. apply pol_ext with (fun x => f x + -1 * g x); [apply pol_add; [easy|now apply pol_scal]|].
  intros x. ring.
Qed.
Lemma pol_mulx n f : pol n f -> pol (S n) (fun x => x * f x).
Proof. intros H. apply pol_ext with (fun x => 0 + x * f x); [now apply pol_cons|]. intros x. ring. Qed.
Lemma pol_S n f : pol n f -> pol (S n) f.
Proof.
  revert f. induction n as [|n IH]; intros f Hf.
  - apply pol_ext with (fun _ => 0); [apply pol_zero|]. intros x. now rewrite (pol_0 f).
  - destruct (pol_uncons n f Hf) as (a & f1 & H1 & E1).
    apply pol_ext with (fun x => a + x * f1 x); [apply pol_cons; now apply IH|easy].
Qed.
Lemma pol_le n m f : (n <= m)%nat -> pol n f -> pol m f.
Proof. induction 1; [easy|]. intros. apply pol_S. now apply IHle. Qed.
Lemma pol_const c : pol 1 (fun _ => c).
Proof. apply pol_ext with (fun x => c + x * 0); [apply pol_cons; apply pol_zero|]. intros; ring. Qed.
Lemma pol_lin n a f : pol n f -> pol (S n) (fun x => (x - a) * f x).
Proof.
  intros H. apply pol_ext with (fun x => x * f x - a * f x); [|intros; ring].
  apply pol_sub; [now apply pol_mulx|]. apply pol_S. now apply pol_scal.
Qed.
Lemma pol_mul n m f g : pol n f -> pol m g -> pol (n + m) (fun x => f x * g x).
Proof.
  revert f. induction n as [|n IH]; intros f Hf Hg.
  - apply pol_ext with (fun _ => 0); [apply pol_zero|]. intros x. rewrite (pol_0 f) by easy. ring.
  - destruct (pol_uncons n f Hf) as (a & f1 & H1 & E1).
    apply pol_ext with (fun x => a * g x + x * (f1 x * g x)); [|intros x; rewrite E1; ring].
    apply pol_add; [apply pol_le with m; [lia|now apply pol_scal]|]. apply (pol_mulx (n + m)). now apply IH.
Qed.
Lemma pol_pow k : pol (S k) (fun x => x ^ k).
Proof. induction k; [apply pol_ext with (fun _ => 1); [apply pol_const|easy]|]. apply (pol_mulx (S k) (fun x => x ^ k) IHk). Qed.
Lemma pol_div n f a : pol (S n) f -> exists g, pol n g /\ forall t, f t = (t - a) * g t + f a.
Proof.
  revert f. induction n as [|n IH]; intros f Hf; destruct (pol_uncons _ f Hf) as (c & f1 & H1 & E1).
  - exists (fun _ => 0). split; [apply pol_zero|]. intros t. rewrite !E1, !(pol_0 f1) by easy. ring.
  - destruct (IH f1 H1) as (g & Hg & E). exists (fun t => f1 a + t * g t). split; [now apply pol_cons|].
    intros t. rewrite !E1, (E t). ring.
Qed.
Lemma pol_ex_derive n f (t : R) : pol n f -> ex_derive f t.
Proof.
  revert f. induction n as [|n IH]; intros f Hf.
  - apply ex_derive_ext with (fun _ : R => 0); [intros x; now rewrite (pol_0 f)|]. apply (ex_derive_const (K:=R_AbsRing) (V := R_NormedModule)).
  - destruct (pol_uncons n f Hf) as (a & g & Hg & E).
    apply ex_derive_ext with (fun x : R => a + x * g x); [intros x; symmetry; apply E|].
    auto_derive. now apply IH.
Qed.
Lemma pol_cont n f (t : R) : pol n f -> continuous f t.
Proof. intros H. apply (ex_derive_continuous f t). now apply pol_ex_derive with n. Qed.

(* the monic polynomial with the given roots *)
Fixpoint node (l : list R) (t : R) : R := match l with nil => 1 | a :: l' => (t - a) * node l' t end.
Lemma node_pol l : pol (S (length l)) (node l).
Proof. induction l; cbn [length node]; [apply pol_const|]. now apply (pol_lin (S (length l)) a (node l)). Qed.
Lemma node_app l1 l2 t : node (l1 ++ l2) t = node l1 t * node l2 t.
Proof. induction l1; cbn; [ring|]. rewrite IHl1. ring. Qed.
Lemma node_zero l t : node l t = 0 <-> In t l.
Proof.
  induction l as [|a l IH]; cbn; [split; [lra|easy]|]. split; intros H.
  - apply Rmult_integral in H. destruct H; [left; lra|right; now apply IH].
  - destruct H as [->|H]; [ring|]. apply IH in H. rewrite H. ring.
Qed.
Lemma node_monic l : pol (length l) (fun t => node l t - t ^ length l).
Proof.
  induction l as [|a l IH]; cbn [length node].
  - apply pol_ext with (fun _ => 0); [apply pol_zero|]. intros; cbn; ring.
  - apply pol_ext with (fun t => (t - a) * (node l t - t ^ length l) - a * t ^ length l); [|intros; cbn [pow]; ring].
    apply pol_sub; [now apply pol_lin|]. apply pol_scal, pol_pow.
Qed.
Lemma node_pos l t : List.Forall (fun x => x < t) l -> 0 < node l t.
Proof. induction 1; cbn; [lra|]. apply Rmult_lt_0_compat; lra. Qed.
Lemma node_neg l t : List.Forall (fun x => t < x) l -> 0 < (-1) ^ length l * node l t.
Proof.
  induction 1; cbn; [lra|]. replace (-1 * (-1) ^ length l * ((t - x) * node l t)) with ((x - t) * ((-1) ^ length l * node l t)) by ring.
  apply Rmult_lt_0_compat; lra.
Qed.
Lemma roots_form n f l : pol (n + length l) f -> NoDup l -> (forall x, In x l -> f x = 0) ->
  exists g, pol n g /\ forall t, f t = node l t * g t.
Proof.
  revert f. induction l as [|a l IH]; intros f Hf Hd Hr.
  - exists f. cbn in Hf. rewrite Nat.add_0_r in Hf. split; [easy|]. intros; cbn; ring.
  - cbn [length] in Hf. rewrite Nat.add_succ_r in Hf. destruct (pol_div _ f a Hf) as (g & Hg & E).
    inversion Hd as [|? ? Hn Hd']; subst. rewrite (Hr a) in E by now left.
    destruct (IH g Hg Hd') as (h & Hh & Eh).
    + intros x Hx. assert (Q := E x). rewrite (Hr x) in Q by now right.
      assert (x <> a) by (intros ->; easy). apply Rmult_eq_reg_l with (x - a); [lra|lra].
    + exists h. split; [easy|]. intros t. rewrite E, Eh. cbn. ring.
Qed.
Lemma roots_zero f l : pol (length l) f -> NoDup l -> (forall x, In x l -> f x = 0) -> forall t, f t = 0.
Proof.
  intros H1 H2 H3 t. destruct (roots_form 0 f l H1 H2 H3) as (g & Hg & E). rewrite E, (pol_0 g) by easy. ring.
Qed.
Lemma node_div n f l : pol (n + length l) f -> exists q r, pol n q /\ pol (length l) r /\ forall t, f t = q t * node l t + r t.
Proof.
  revert f. induction l as [|a l IH]; intros f Hf.
  - exists f, (fun _ => 0). cbn in *. rewrite Nat.add_0_r in Hf. split; [easy|]. split; [apply pol_zero|]. intros; ring.
  - cbn [length] in *. rewrite Nat.add_succ_r in Hf. destruct (pol_div _ f a Hf) as (g & Hg & E).
    destruct (IH g Hg) as (q & r & Hq & Hr & E'). exists q, (fun t => (t - a) * r t + f a). split; [easy|]. split.
    + apply pol_add; [now apply pol_lin|]. apply pol_le with 1%nat; [lia|]. apply pol_const.
    + intros t. rewrite (E t), E'. cbn. ring.
Qed.

(* ---------- Legendre polynomials ---------- *)
Definition P (n : nat) (t : R) : R := HL t 1 n.
Definition P' (n : nat) (t : R) : R := HG t 1 n.
Lemma P_rec n t : (INR n + 2) * P (S (S n)) t = (2 * INR n + 3) * t * P (S n) t - (INR n + 1) * P n t.
Proof. unfold P. rewrite HL_SS. ring. Qed.
Lemma P_der n (t : R) : is_derive (P n) t (P' n t).
Proof.
  eapply is_derive_eq; [apply (HL_der (fun x => x) (fun _ => 1) t 1 0 n)|].
  - apply (is_derive_id (K := R_AbsRing)).
  - apply (is_derive_const (K:=R_AbsRing)(V := R_NormedModule)).
  - unfold P'. ring.
Qed.
Lemma P_pol n : pol (S n) (P n).
Proof.
  revert n. apply nat_ind2.
  - apply pol_ext with (fun _ => 1); [apply pol_const|]. intros. unfold P. now rewrite HL_0.
  - apply pol_ext with (fun x => x ^ 1); [apply (pol_pow 1)|]. intros. unfold P. rewrite HL_1. ring.
  - intros n H0 H1. assert (Hn := pos_INR n).
    apply pol_ext with (fun t => (2 * INR n + 3) / (INR n + 2) * (t * P (S n) t) - (INR n + 1) / (INR n + 2) * P n t).
    + apply pol_sub; [apply pol_scal; now apply pol_mulx|]. apply pol_scal. now do 2 apply pol_S.
    + intros t. apply Rmult_eq_reg_l with (INR n + 2); [|lra]. rewrite P_rec. field. lra.
Qed.
Lemma P_one n : P n 1 = 1.
Proof.
  revert n. apply nat_ind2; [reflexivity|unfold P; apply HL_1|]. intros n H0 H1. assert (Hn := pos_INR n).
  apply Rmult_eq_reg_l with (INR n + 2); [|lra]. rewrite P_rec, H0, H1. ring.
Qed.
Lemma P_m1 n : P n (-1) = (-1) ^ n.
Proof.
  revert n. apply nat_ind2; [reflexivity|unfold P; rewrite HL_1; ring|]. intros n H0 H1. assert (Hn := pos_INR n).
  apply Rmult_eq_reg_l with (INR n + 2); [|lra]. rewrite P_rec, H0, H1. cbn [pow]. ring.
Qed.
Lemma P'_S n t : P' (S n) t = t * P' n t + (INR n + 1) * P n t.
Proof. apply HG_S. Qed.
Lemma P'_b n t : t * P' (S n) t - P' n t = (INR n + 1) * P (S n) t.
Proof. unfold P', P. rewrite <- HG_b. ring. Qed.
Lemma der_mul (f g : R -> R) (t a b : R) : is_derive f t a -> is_derive g t b -> is_derive (fun x => f x * g x) t (a * g t + f t * b).
Proof. intros H1 H2. apply (is_derive_mult f g t a b H1 H2). intros; apply Rmult_comm. Qed.
Lemma der_sub (f g : R -> R) (t a b : R) : is_derive f t a -> is_derive g t b -> is_derive (fun x => f x - g x) t (a - b).
Proof. intros H1 H2. apply (is_derive_minus (K := R_AbsRing) (V := R_NormedModule) f g t a b H1 H2). Qed.
Lemma der_scal (c : R) (f : R -> R) (t a : R) : is_derive f t a -> is_derive (fun x => c * f x) t (c * a).
Proof. intros H1. apply (is_derive_scal f t c a H1). Qed.
Lemma der_id (t : R) : is_derive (fun x : R => x) t 1.
Proof. apply (is_derive_id (K := R_AbsRing)). Qed.
(* Legendre's differential equation *)
Definition W (n : nat) (t : R) := (1 - t ^ 2) * P' n t.
Lemma W_S n t : W (S n) t = (INR n + 1) * (P n t - t * P (S n) t).
Proof.
  unfold W. assert (A := P'_S n t). assert (B := P'_b n t).
  replace ((1 - t ^ 2) * P' (S n) t) with (P' (S n) t - t * (t * P' (S n) t)) by ring.
  replace (t * P' (S n) t) with (P' n t + (INR n + 1) * P (S n) t) by lra. rewrite A. ring.
Qed.
Lemma W_der n (t : R) : is_derive (W n) t (- (INR n * (INR n + 1)) * P n t).
Proof.
  destruct n as [|n].
  - apply (is_derive_ext (fun _ : R => 0)); [intros x; unfold W, P'; cbn [HG]; match goal with |- @eq _ ?x ?y => change (@eq R x y) end; ring|].
    eapply is_derive_eq; [apply (is_derive_const (K:=R_AbsRing)(V := R_NormedModule))|]. simpl INR. unfold zero; cbn. ring.
  - apply (is_derive_ext (fun t : R => (INR n + 1) * (P n t - t * P (S n) t))); [intros x; symmetry; apply W_S|].
    assert (A := P_der n t). assert (B := P_der (S n) t).
    eapply is_derive_eq; [exact (der_scal _ _ _ _ (der_sub _ _ _ _ _ A (der_mul _ _ _ _ _ (der_id t) B)))|].
    assert (C := P'_b n t). rewrite S_INR. nra.
Qed.
Definition Z0 (f : R -> R) : Prop := is_RInt f (-1) 1 0.
Lemma Z0_ext f g : Z0 f -> (forall x, f x = g x) -> Z0 g.
Proof. intros H E. apply is_RInt_ext with f; [intros; apply E|easy]. Qed.
Lemma Z0_add f g : Z0 f -> Z0 g -> Z0 (fun x => f x + g x).
Proof. intros H1 H2. unfold Z0. replace 0 with (0 + 0) by ring. apply (is_RInt_plus (V := R_NormedModule)); easy. Qed.
Lemma Z0_scal c f : Z0 f -> Z0 (fun x => c * f x).
Proof. intros H1. unfold Z0. replace 0 with (c * 0) by ring. apply (is_RInt_scal (V := R_NormedModule)); easy. Qed.
Lemma Z0_0 : Z0 (fun _ => 0).
Proof.
  assert (I := is_RInt_const (V := R_NormedModule) (-1) 1 0). unfold Z0.
  change (is_RInt (fun _ : R => 0) (-1) 1 ((1 - -1) * 0)) in I. now rewrite Rmult_0_r in I.
Qed.
Lemma P_orth n m : n <> m -> Z0 (fun t => P n t * P m t).
Proof.
  intros Hnm. set (c := INR m * (INR m + 1) - INR n * (INR n + 1)).
  assert (Hc : c <> 0).
  { unfold c. assert (Hn := pos_INR n). assert (Hm := pos_INR m). assert (INR n <> INR m) by (intros E; now apply INR_eq in E).
    replace (INR m * (INR m + 1) - INR n * (INR n + 1)) with ((INR m - INR n) * (INR m + INR n + 1)) by ring.
    apply Rmult_integral_contrapositive_currified; lra. }
  assert (D : forall t : R, is_derive (fun t => W n t * P m t - P n t * W m t) t (c * (P n t * P m t))).
  { intros t. assert (A1 := P_der n t). assert (A2 := P_der m t). assert (B1 := W_der n t). assert (B2 := W_der m t).
    eapply is_derive_eq; [exact (der_sub _ _ _ _ _ (der_mul _ _ _ _ _ B1 A2) (der_mul _ _ _ _ _ A1 B2))|].
      unfold W, c. ring. }
  assert (I := is_RInt_derive (V := R_CompleteNormedModule) (fun t => W n t * P m t - P n t * W m t) (fun t => c * (P n t * P m t)) (-1) 1 (fun x _ => D x)).
  assert (I2 : Z0 (fun t => c * (P n t * P m t))).
  { unfold Z0. replace 0 with ((W n 1 * P m 1 - P n 1 * W m 1) - (W n (-1) * P m (-1) - P n (-1) * W m (-1))) by (unfold W; ring).
    apply I. intros x _. apply (pol_cont (S n + S m)). apply pol_scal. apply pol_mul; apply P_pol. }
  apply Z0_ext with (fun t => / c * (c * (P n t * P m t))); [now apply Z0_scal|]. intros x. field. easy.
Qed.
Lemma P_orth_xk n k : forall m, (k + m < n)%nat -> Z0 (fun t => P n t * (t ^ k * P m t)).
Proof.
  induction k as [|k IH]; intros m H.
  - apply Z0_ext with (fun t => P n t * P m t); [apply P_orth; lia|]. intros; cbn; ring.
  - destruct m as [|m].
    + apply Z0_ext with (fun t => P n t * (t ^ k * P 1 t)); [apply IH; lia|].
      intros t. unfold P. rewrite HL_0, HL_1. cbn [pow]. ring.
    + assert (Hm := pos_INR m).
      apply Z0_ext with (fun t => (INR m + 2) / (2 * INR m + 3) * (P n t * (t ^ k * P (S (S m)) t)) + (INR m + 1) / (2 * INR m + 3) * (P n t * (t ^ k * P m t))).
      * apply Z0_add; apply Z0_scal; apply IH; lia.
      * intros t. assert (E := P_rec m t).
        replace (P n t * (t ^ S k * P (S m) t)) with (P n t * t ^ k * ((INR m + 2) * P (S (S m)) t + (INR m + 1) * P m t) / (2 * INR m + 3)).
        { field. lra. } rewrite E. cbn [pow]. field. lra.
Qed.
Lemma P_orth_pol n f : pol n f -> Z0 (fun t => P n t * f t).
Proof.
  intros (l & Hl & E). apply Z0_ext with (fun t => P n t * (t ^ 0 * peval l t)); [|intros; rewrite E; cbn; ring].
  assert (G : forall k, (k + length l <= n)%nat -> Z0 (fun t => P n t * (t ^ k * peval l t))).
  { clear. induction l as [|a l IH]; intros k H; cbn [length peval] in *.
    - apply Z0_ext with (fun t => 0); [|intros; ring]. apply Z0_0.
    - apply Z0_ext with (fun t => a * (P n t * (t ^ k * P 0 t)) + P n t * (t ^ S k * peval l t)).
      + apply Z0_add; [apply Z0_scal; apply P_orth_xk; lia|apply IH; lia].
      + intros t. unfold P at 2. rewrite HL_0. cbn [pow]. ring. }
  apply G. lia.
Qed.

(* ---------- n distinct roots inside (-1, 1) ---------- *)
Fixpoint alt (s : R) (f : R -> R) (l : list R) : Prop := match l with nil => True | x :: l' => 0 < s * f x /\ alt (- s) f l' end.
Lemma ivt_sign (f : R -> R) a b : (forall x, continuous f x) -> a < b -> f a * f b < 0 -> exists x, a < x < b /\ f x = 0.
Proof.
  intros C Hab Hs.
  destruct (IVT_gen f a b 0) as (x & Hx & E).
  - intros y. apply continuity_pt_filterlim. apply C.
  - unfold Rmin, Rmax. destruct (Rle_dec (f a) (f b)); nra.
  - rewrite Rmin_left, Rmax_right in Hx by lra. exists x. split; [|easy].
    split; destruct Hx as [[H1|H1] [H2|H2]]; try easy; try lra; subst; rewrite E in Hs; lra.
Qed.
Lemma alt_roots f : (forall x, continuous f x) -> forall l a s B, StronglySorted Rlt (a :: l) -> s <> 0 -> alt s f (a :: l) ->
  (forall x, In x (a :: l) -> x <= B) ->
  exists r, length r = length l /\ StronglySorted Rlt r /\ forall x, In x r -> a < x < B /\ f x = 0.
Proof.
  intros C. induction l as [|b l IH]; intros a s B Hs Hs0 Ha HB.
  - exists nil. split; [easy|]. split; [constructor|easy].
  - inversion Hs as [|? ? Hs1 Hs2]; subst. destruct Ha as (A1 & A2).
    destruct (IH b (- s) B Hs1 ltac:(lra) A2) as (r & L & R1 & R2); [intros x Hx; apply HB; now right|].
    destruct A2 as (A2 & _). inversion Hs2 as [|? ? Hab _]; subst.
    destruct (ivt_sign f a b C Hab) as (x & Hx & E).
    { assert (0 < s * f a * (- s * f b)) by (apply Rmult_lt_0_compat; lra). nra. }
    assert (b <= B) by (apply HB; right; now left).
    exists (x :: r). split; [cbn; lia|]. split.
    + constructor; [easy|]. apply List.Forall_forall. intros y Hy. destruct (R2 y Hy). lra.
    + intros y [<-|Hy]; [split; [lra|easy]|]. destruct (R2 y Hy). split; [lra|easy].
Qed.
Lemma SS_NoDup l : StronglySorted Rlt l -> NoDup l.
Proof.
  induction 1 as [|a l H IH Hf]; constructor; [|easy]. intros Hi. rewrite List.Forall_forall in Hf. specialize (Hf a Hi). lra.
Qed.
Lemma SS_mid p x s : StronglySorted Rlt (p ++ x :: s) -> List.Forall (fun y => y < x) p /\ List.Forall (fun y => x < y) s.
Proof.
  induction p as [|a p IH]; cbn; intros H; inversion H as [|? ? H1 H2]; subst.
  - split; [constructor|easy].
  - destruct (IH H1) as (A & B). split; [|easy]. constructor; [|easy]. rewrite List.Forall_forall in H2. apply H2, in_or_app. right. now left.
Qed.
Lemma SS_snoc l b : StronglySorted Rlt l -> (forall x, In x l -> x < b) -> StronglySorted Rlt (l ++ b :: nil).
Proof.
  induction 1 as [|a l H IH Hf]; cbn; intros G; constructor; try constructor.
  - apply IH. intros; apply G. now right.
  - apply List.Forall_app. split; [easy|]. constructor; [apply G; now left|constructor].
Qed.
Lemma P_factor n l : length l = n -> NoDup l -> (forall x, In x l -> -1 < x < 1 /\ P n x = 0) ->
  exists c, 0 < c /\ forall t, P n t = c * node l t.
Proof.
  intros H D HP. destruct (roots_form 1 (P n) l) as (g & Hg & E); [rewrite H; apply (P_pol n)|easy|intros x Hx; now apply HP|].
  destruct (pol_uncons 0 g Hg) as (c & g0 & H0 & Eg).
  assert (E' : forall t, P n t = c * node l t) by (intros t; rewrite E, Eg, (pol_0 g0) by easy; ring).
  exists c. split; [|easy]. assert (Q := E' 1). rewrite P_one in Q.
  assert (0 < node l 1) by (apply node_pos, List.Forall_forall; intros x Hx; apply HP; easy). nra.
Qed.
(* at a root of P_n the next polynomial has the sign opposite to the slope *)
Lemma P_next n x : P n x = 0 -> (INR n + 1) * P (S n) x = - ((1 - x ^ 2) * P' n x).
Proof. intros H. rewrite <- P'_b, P'_S, H. ring. Qed.
Lemma slope n c p x s : (forall t, P n t = c * node (p ++ x :: s) t) -> P' n x = c * node p x * node s x.
Proof.
  intros E. assert (D := P_der n x).
  assert (D2 : is_derive (P n) x (c * node p x * node s x)).
  { apply (is_derive_ext (fun t : R => (t - x) * (c * (node p t * node s t)))); [intros t; rewrite E, node_app; cbn [node]; match goal with |- @eq _ ?x ?y => change (@eq R x y) end; ring|].
    assert (ED : ex_derive (fun t : R => c * (node p t * node s t)) x).
    { apply (pol_ex_derive (S (length p) + S (length s))). apply pol_scal, pol_mul; apply node_pol. }
    destruct ED as (d & ED).
    eapply is_derive_eq; [exact (der_mul _ _ _ _ _ (der_sub _ _ _ _ _ (der_id x) (is_derive_const (K:=R_AbsRing)(V := R_NormedModule) x x)) ED)|].
    unfold zero; cbn. ring. }
  rewrite <- (is_derive_unique _ _ _ D). now apply is_derive_unique.
Qed.
Lemma alt_tail n l : length l = n -> StronglySorted Rlt l -> (forall x, In x l -> -1 < x < 1 /\ P n x = 0) ->
  forall s p, l = p ++ s -> alt ((-1) ^ length s) (P (S n)) (s ++ 1 :: nil).
Proof.
  intros H S HP. destruct (P_factor n l H (SS_NoDup l S) HP) as (c & Hc & E).
  induction s as [|x s IH]; intros p El.
  - cbn [app alt length pow]. rewrite P_one. split; [lra|easy].
  - change ((x :: s) ++ 1 :: nil) with (x :: (s ++ 1 :: nil)). split.
    + assert (E2 : forall t, P n t = c * node (p ++ x :: s) t) by (intros t; rewrite <- El; apply E).
      apply slope in E2. assert (Hx : In x l) by (rewrite El; apply in_or_app; right; now left). destruct (HP x Hx) as (Hx1 & Hx0).
      assert (N := P_next n x Hx0). rewrite El in S. destruct (SS_mid p x s S) as (S1 & S2).
      apply node_pos in S1. apply node_neg in S2. assert (Hn := pos_INR n).
      apply Rmult_lt_reg_l with (INR n + 1); [lra|]. rewrite Rmult_0_r.
      replace ((INR n + 1) * ((-1) ^ length (x :: s) * P (Datatypes.S n) x)) with ((-1) ^ length (x :: s) * ((INR n + 1) * P (Datatypes.S n) x)) by ring.
      rewrite N, E2. change ((-1) ^ length (x :: s)) with (-1 * (-1) ^ length s).
      replace (-1 * (-1) ^ length s * - ((1 - x ^ 2) * (c * node p x * node s x))) with (((1 - x ^ 2) * (c * node p x)) * ((-1) ^ length s * node s x)) by ring.
      apply Rmult_lt_0_compat; [|exact S2]. apply Rmult_lt_0_compat; [nra|]. now apply Rmult_lt_0_compat.
    + replace (- (-1) ^ length (x :: s)) with ((-1) ^ length s) by (cbn [length pow]; ring).
      apply (IH (p ++ x :: nil)). rewrite El, <- app_assoc. easy.
Qed.
Lemma P_roots n : exists l, length l = n /\ StronglySorted Rlt l /\ forall x, In x l -> -1 < x < 1 /\ P n x = 0.
Proof.
  induction n as [|n (l & H & Hs & HP)].
  - exists nil. split; [easy|]. split; [constructor|easy].
  - destruct (alt_roots (P (S n)) (fun x => pol_cont _ _ x (P_pol (S n))) (l ++ 1 :: nil) (-1) ((-1) ^ S n) 1) as (r & R1 & R2 & R3).
    + constructor; [apply SS_snoc; [easy|intros x Hx; now apply HP]|].
      apply List.Forall_app. split; [apply List.Forall_forall; intros x Hx; now apply HP|constructor; [lra|constructor]].
    + apply pow_nonzero. lra.
    + split.
      * rewrite P_m1. rewrite <- pow_add. replace (S n + S n)%nat with (2 * S n)%nat by lia. rewrite pow_mult. 
        replace ((-1) ^ 2) with 1 by ring. rewrite pow1. lra.
      * replace (- (-1) ^ S n) with ((-1) ^ length l) by (rewrite H; cbn [pow]; ring).
        apply (alt_tail n l H Hs HP l nil). easy.
    + intros x [<-|Hx]; [lra|]. apply in_app_or in Hx. destruct Hx as [Hx|[<-|[]]]; [|lra]. destruct (HP x Hx). lra.
    + exists r. rewrite app_length in R1. cbn in R1. split; [lia|]. split; [easy|]. easy.
Qed.

(* ---------- weights ---------- *)
Lemma is_RInt_pol n f : pol n f -> is_RInt f (-1) 1 (RInt f (-1) 1).
Proof. intros H. apply (RInt_correct (V := R_CompleteNormedModule)). apply (ex_RInt_continuous (V := R_CompleteNormedModule)). intros x _. now apply pol_cont with n. Qed.
Lemma pos_int (f : R -> R) x : (forall t, continuous f t) -> (forall t, 0 <= f t) -> -1 < x < 1 -> 0 < f x -> 0 < RInt f (-1) 1.
Proof.
  intros C Hn Hx Hf.
  assert (EX : forall a b, ex_RInt f a b) by (intros; apply (ex_RInt_continuous (V := R_CompleteNormedModule)); intros; apply C).
  assert (Cx := C x). apply continuity_pt_filterlim in Cx.
  destruct (Cx (f x) Hf) as (d & Hd & HH).
  set (e := Rmin (d / 2) ((1 - x) / 2)). assert (He : 0 < e) by (unfold e; apply Rmin_glb_lt; lra).
  assert (He1 : e <= d / 2) by apply Rmin_l. assert (He2 : e <= (1 - x) / 2) by apply Rmin_r.
  rewrite <- (RInt_Chasles (V := R_CompleteNormedModule) f (-1) x 1 (EX _ _) (EX _ _)).
  rewrite <- (RInt_Chasles (V := R_CompleteNormedModule) f x (x + e) 1 (EX _ _) (EX _ _)).
  assert (A : 0 <= RInt f (-1) x) by (apply RInt_ge_0; [lra|apply EX|intros; apply Hn]).
  assert (B : 0 <= RInt f (x + e) 1) by (apply RInt_ge_0; [lra|apply EX|intros; apply Hn]).
  assert (D : 0 < RInt f x (x + e)).
  { apply RInt_gt_0; [lra| |intros; apply C]. intros t Ht.
    specialize (HH t). unfold D_x, no_cond in HH. cbn in HH. unfold R_dist in HH.
    assert (Q : Rabs (f t - f x) < f x). { apply HH. split; [split; [easy|lra]|]. rewrite Rabs_pos_eq by lra. lra. }
    apply Rabs_def2 in Q. lra. }
  match goal with |- _ < ?g => change g with (RInt f (-1) x + (RInt f x (x + e) + RInt f (x + e) 1)) end. lra.
Qed.
Definition rem (x : R) (l : list R) : list R := List.remove Req_EM_T x l.
Lemma rem_in x y l : In y (rem x l) <-> In y l /\ y <> x.
Proof. split; [apply in_remove|]. intros (A & B). now apply in_in_remove. Qed.
Lemma rem_out x l : ~ In x l -> rem x l = l.
Proof. apply notin_remove. Qed.
Lemma rem_len x l : NoDup l -> In x l -> S (length (rem x l)) = length l.
Proof.
  induction l as [|a l IH]; intros Hd Hi; [easy|]. inversion Hd; subst. unfold rem in *. cbn.
  destruct (Req_EM_T x a) as [->|Hn]; [now rewrite rem_out|]. cbn. f_equal. apply IH; [easy|]. destruct Hi; [congruence|easy].
Qed.
Definition lag (l : list R) (x t : R) : R := / node (rem x l) x * node (rem x l) t.
Lemma lag_pol l x : NoDup l -> In x l -> pol (length l) (lag l x).
Proof. intros D H. unfold lag. apply pol_scal. rewrite <- (rem_len x l D H). apply node_pol. Qed.
Lemma lag_same l x : lag l x x = 1.
Proof. unfold lag. apply Rinv_l. intros H. apply node_zero, rem_in in H. now destruct H. Qed.
Lemma lag_other l x y : In y l -> y <> x -> lag l x y = 0.
Proof. intros H1 H2. unfold lag. replace (node (rem x l) y) with 0; [ring|]. symmetry. apply node_zero, rem_in. easy. Qed.
Definition lsum (l : list R) (f : R -> R) : R := fold_right (fun x a => f x + a) 0 l.
Lemma lsum_ext l f g : (forall x, In x l -> f x = g x) -> lsum l f = lsum l g.
Proof. intros H. induction l; [easy|]. cbn. rewrite H by now left. f_equal. apply IHl. intros; apply H. now right. Qed.
Lemma lsum_zero l f : (forall x, In x l -> f x = 0) -> lsum l f = 0.
Proof. intros H. induction l; [easy|]. cbn. rewrite H by now left. rewrite Rplus_0_l. apply IHl. intros; apply H. now right. Qed.
Lemma lsum_single l f y : NoDup l -> In y l -> (forall x, In x l -> x <> y -> f x = 0) -> lsum l f = f y.
Proof.
  induction l as [|a l IH]; intros D Hy H; [easy|]. inversion D; subst. cbn. destruct Hy as [->|Hy].
  - change (f y + lsum l f = f y). rewrite (lsum_zero l f); [ring|]. intros x Hx. apply H; [now right|]. intros ->. easy.
  - rewrite H; [|now left|intros ->; easy]. rewrite Rplus_0_l. apply IH; [easy|easy|]. intros; apply H; [now right|easy].
Qed.
Lemma pol_lsum n l (f : R -> R -> R) : (forall x, In x l -> pol n (f x)) -> pol n (fun t => lsum l (fun x => f x t)).
Proof.
  induction l as [|a l IH]; intros H; cbn.
  - apply pol_zero.
  - apply pol_add; [apply H; now left|apply IH; intros; apply H; now right].
Qed.
Lemma lagrange l f : NoDup l -> pol (length l) f -> forall t, f t = lsum l (fun x => f x * lag l x t).
Proof.
  intros D H t. apply Rminus_diag_uniq. revert t. apply (roots_zero _ l); [|easy|].
  - apply pol_sub; [easy|]. apply (pol_lsum _ l (fun x t => f x * lag l x t)). intros x Hx. apply pol_scal. now apply lag_pol.
  - intros y Hy. rewrite (lsum_single l _ y D Hy).
    + rewrite lag_same. ring.
    + intros x Hx Hn. rewrite (lag_other l x y Hy) by congruence. ring.
Qed.
Lemma quad_map l w f : quad (map (fun x => (x, w x)) l) f = lsum l (fun x => w x * f x).
Proof. unfold quad. induction l as [|a l IH]; cbn; [easy|]. now rewrite IH. Qed.
Lemma is_RInt_lsum l (f : R -> R -> R) (v : R -> R) : (forall x, In x l -> is_RInt (f x) (-1) 1 (v x)) -> is_RInt (fun t => lsum l (fun x => f x t)) (-1) 1 (lsum l v).
Proof.
  induction l as [|a l IH]; intros H; cbn.
  - apply Z0_0.
  - apply (is_RInt_plus (V := R_NormedModule)); [apply H; now left|apply IH; intros; apply H; now right].
Qed.
Lemma quad_ext r f g : (forall x, f x = g x) -> quad r f = quad r g.
Proof. intros H. unfold quad. induction r as [|a r IH]; cbn; [easy|]. now rewrite H, IH. Qed.
Lemma quad_add r f g : quad r (fun x => f x + g x) = quad r f + quad r g.
Proof. unfold quad. induction r as [|a r IH]; cbn; [ring|]. rewrite IH. ring. Qed.
Lemma quad_scal r c f : quad r (fun x => c * f x) = c * quad r f.
Proof. unfold quad. induction r as [|a r IH]; cbn; [ring|]. rewrite IH. ring. Qed.
Lemma quad_lin r n f : (forall k, (k < n)%nat -> is_RInt (fun x => x ^ k) (-1) 1 (quad r (fun x => x ^ k))) -> pol n f -> is_RInt f (-1) 1 (quad r f).
Proof.
  intros H (l & Hl & E).
  assert (G : forall k, (k + length l <= n)%nat -> is_RInt (fun t => t ^ k * peval l t) (-1) 1 (quad r (fun t => t ^ k * peval l t))).
  { clear Hl E. induction l as [|a l IH]; intros k Hk; cbn [length peval] in *.
    - rewrite (quad_ext r _ (fun x => 0 * x)) by (intros; ring). rewrite quad_scal, Rmult_0_l.
      apply (Z0_ext (fun _ => 0)); [apply Z0_0|intros; ring].
    - rewrite (quad_ext r _ (fun t => a * t ^ k + t ^ S k * peval l t)) by (intros; cbn [pow]; ring). rewrite quad_add, quad_scal.
      apply is_RInt_ext with (fun t => a * t ^ k + t ^ S k * peval l t); [intros; cbn [pow]; match goal with |- @eq _ ?x ?y => change (@eq R x y) end; ring|].
      apply (is_RInt_plus (V := R_NormedModule)); [|apply IH; lia]. apply (is_RInt_scal (V := R_NormedModule)). apply H. lia. }
  specialize (G 0%nat ltac:(lia)). rewrite (quad_ext r _ (fun t => t ^ 0 * peval l t)) by (intros x; rewrite E; cbn; ring).
  apply is_RInt_ext with (fun t => t ^ 0 * peval l t); [intros x _; rewrite E; cbn; match goal with |- @eq _ ?x ?y => change (@eq R x y) end; ring|easy].
Qed.

(* the rule whose points are the roots of the n-th Legendre polynomial *)
Theorem gauss_exists n : exists r, gauss_rule n r /\ forall p, In p r -> P n (fst p) = 0.
Proof.
  destruct (P_roots n) as (l & H & Hs & HP). assert (D := SS_NoDup l Hs).
  destruct (P_factor n l H D HP) as (c & Hc & E).
  set (w := fun x => RInt (lag l x) (-1) 1). set (r := map (fun x => (x, w x)) l).
  assert (EX : forall f, pol (n + n) f -> is_RInt f (-1) 1 (quad r f)).
  { intros f Hf. rewrite <- H in Hf at 2. destruct (node_div n f l Hf) as (q & g & Hq & Hg & Ef).
    assert (Ig : is_RInt g (-1) 1 (quad r g)).
    { unfold r. rewrite quad_map. apply is_RInt_ext with (fun t => lsum l (fun x => g x * lag l x t)); [intros; symmetry; now apply lagrange|].
      apply (is_RInt_lsum l (fun x t => g x * lag l x t)). intros x Hx. rewrite Rmult_comm. apply (is_RInt_scal (V := R_NormedModule)).
      apply (is_RInt_pol (length l)). now apply lag_pol. }
    assert (Iq : Z0 (fun t => q t * node l t)).
    { apply Z0_ext with (fun t => / c * (P n t * q t)); [apply Z0_scal; now apply P_orth_pol|]. intros t. rewrite E. field. lra. }
    replace (quad r f) with (0 + quad r g).
    - apply is_RInt_ext with (fun t => q t * node l t + g t); [intros; symmetry; apply Ef|]. now apply (is_RInt_plus (V := R_NormedModule)).
    - rewrite Rplus_0_l. unfold r. rewrite !quad_map. apply lsum_ext. intros x Hx. rewrite Ef.
      replace (node l x) with 0 by (symmetry; now apply node_zero). ring. }
  assert (Hw : forall x, In x l -> 0 < w x).
  { intros x Hx.
    assert (Q : pol (n + n) (fun t => lag l x t * lag l x t)) by (rewrite <- H; apply pol_mul; now apply lag_pol).
    assert (I := EX _ Q). unfold r in I. rewrite quad_map, (lsum_single l _ x D Hx) in I.
    - rewrite lag_same, !Rmult_1_r in I. rewrite <- (is_RInt_unique (V := R_CompleteNormedModule) _ _ _ _ I).
      apply pos_int with x; [intros t; now apply pol_cont with (n + n)%nat|intros; apply Rle_0_sqr|now apply HP|rewrite lag_same; lra].
    - intros y Hy Hn. rewrite (lag_other l x y Hy Hn). ring. }
  exists r. split; [constructor|].
  - unfold r. now rewrite map_length.
  - intros p Hp. apply in_map_iff in Hp. destruct Hp as (x & <- & Hx). cbn. split; [now apply HP|now apply Hw].
  - unfold r. rewrite map_map. cbn. now rewrite map_id.
  - intros k Hk. apply EX. apply pol_le with (S k); [lia|apply pol_pow].
  - intros p Hp. apply in_map_iff in Hp. destruct Hp as (x & <- & Hx). cbn. now apply HP.
Qed.

(* ---------- uniqueness ---------- *)
Lemma SS_eq l l' : StronglySorted Rlt l -> StronglySorted Rlt l' -> (forall x, In x l <-> In x l') -> l = l'.
Proof.
  revert l'. induction l as [|a l IH]; intros [|b l'] H H' E.
  - easy.
  - destruct (proj2 (E b)). now left.
  - destruct (proj1 (E a)). now left.
  - inversion H as [|? ? H1 H2]; inversion H' as [|? ? H1' H2']; subst. rewrite List.Forall_forall in H2, H2'.
    assert (a = b).
    { destruct (proj1 (E a) (or_introl eq_refl)) as [->|A]; [easy|]. destruct (proj2 (E b) (or_introl eq_refl)) as [->|B]; [easy|].
      specialize (H2 b B). specialize (H2' a A). lra. }
    subst b. f_equal. apply IH; [easy|easy|]. intros x. split; intros Hx.
    + destruct (proj1 (E x) (or_intror Hx)) as [->|A]; [|easy]. specialize (H2 x Hx). lra.
    + destruct (proj2 (E x) (or_intror Hx)) as [->|A]; [|easy]. specialize (H2' x Hx). lra.
Qed.
Lemma quad_node r f : quad r (fun t => node (map fst r) t * f t) = 0.
Proof.
  assert (G : forall l r, (forall p, In p r -> In (fst p) l) -> quad r (fun t => node l t * f t) = 0).
  { intros l r0. unfold quad. induction r0 as [|p r0 IH]; intros H; cbn; [easy|]. rewrite IH by (intros; apply H; now right).
    replace (node l (fst p)) with 0; [ring|]. symmetry. apply node_zero, H. now left. }
  apply G. intros p Hp. now apply in_map.
Qed.
Lemma gauss_pol n r f : gauss_rule n r -> pol (2 * n) f -> is_RInt f (-1) 1 (quad r f).
Proof. intros G. apply quad_lin. apply (gr_exact n r G). Qed.
Lemma quad_lag r x w : NoDup (map fst r) -> In (x, w) r -> quad r (lag (map fst r) x) = w.
Proof.
  intros D Hi.
  assert (G : forall l r, NoDup (map fst r) -> (forall p, In p r -> In (fst p) l) -> (~ In x (map fst r) -> quad r (lag l x) = 0) /\ (In (x, w) r -> quad r (lag l x) = w)).
  { clear. intros l r. unfold quad. induction r as [|[y v] r IH]; intros D H; cbn; [easy|]. inversion D as [|? ? D1 D2]; subst.
    destruct (IH D2) as (I1 & I2); [intros; apply H; now right|]. split; [intros N|intros [E|Hi]].
    - rewrite I1, lag_other; [ring|apply (H (y, v)); now left|intros ->; apply N; now left|intros K; apply N; now right].
    - injection E as -> ->. rewrite I1, lag_same by easy. ring.
    - rewrite I2 by easy. rewrite lag_other; [ring|apply (H (y, v)); now left|]. intros ->. apply D1. now apply (in_map fst _ (x, w)). }
  apply G; [easy| |easy]. intros p Hp. now apply in_map.
Qed.
Theorem gauss_unique n r r' : gauss_rule n r -> gauss_rule n r' -> r = r'.
Proof.
  intros G G'. set (l := map fst r). set (l' := map fst r').
  assert (Ll : length l = n) by (unfold l; rewrite map_length; apply (gr_len n r G)).
  assert (Ll' : length l' = n) by (unfold l'; rewrite map_length; apply (gr_len n r' G')).
  assert (Hs := gr_sorted n r G). assert (Hs' := gr_sorted n r' G'). fold l in Hs. fold l' in Hs'.
  set (d := fun t => node l t - node l' t).
  assert (Hd : pol n d).
  { apply pol_ext with (fun t => (node l t - t ^ n) - (node l' t - t ^ n)); [|intros; unfold d; ring].
    apply pol_sub; [rewrite <- Ll|rewrite <- Ll']; apply node_monic. }
  assert (I1 : Z0 (fun t => node l t * d t)).
  { unfold Z0. rewrite <- (quad_node r d). apply (gauss_pol n r); [easy|]. fold l.
    apply pol_ext with (fun t => t ^ n * d t + (node l t - t ^ n) * d t); [|intros; ring].
    apply pol_add; [|apply pol_le with (n + n)%nat; [lia|]; apply pol_mul; [rewrite <- Ll; apply node_monic|easy]].
    assert (X : forall k f, pol n f -> pol (k + n) (fun t => t ^ k * f t)).
    { clear. induction k; intros f Hf; [apply pol_ext with f; [easy|intros; cbn; ring]|].
      apply pol_ext with (fun t => t * (t ^ k * f t)); [apply (pol_mulx (k + n)); now apply IHk|intros; cbn; ring]. }
    apply pol_le with (n + n)%nat; [lia|]. now apply X. }
  assert (I2 : Z0 (fun t => node l' t * d t)).
  { unfold Z0. rewrite <- (quad_node r' d). apply (gauss_pol n r'); [easy|]. fold l'.
    apply pol_ext with (fun t => t ^ n * d t + (node l' t - t ^ n) * d t); [|intros; ring].
    apply pol_add; [|apply pol_le with (n + n)%nat; [lia|]; apply pol_mul; [rewrite <- Ll'; apply node_monic|easy]].
    assert (X : forall k f, pol n f -> pol (k + n) (fun t => t ^ k * f t)).
    { clear. induction k; intros f Hf; [apply pol_ext with f; [easy|intros; cbn; ring]|].
      apply pol_ext with (fun t => t * (t ^ k * f t)); [apply (pol_mulx (k + n)); now apply IHk|intros; cbn; ring]. }
    apply pol_le with (n + n)%nat; [lia|]. now apply X. }
  assert (I : is_RInt (fun t => d t * d t) (-1) 1 0).
  { apply (Z0_ext (fun t => node l t * d t + -1 * (node l' t * d t))); [apply Z0_add; [easy|now apply Z0_scal]|]. intros; unfold d; ring. }
  assert (Z : forall x, -1 < x < 1 -> d x = 0).
  { intros x Hx. destruct (Req_dec (d x) 0) as [E|E]; [easy|exfalso].
    assert (0 < RInt (fun t => d t * d t) (-1) 1).
    { apply pos_int with x; [intros t; apply pol_cont with (n + n)%nat; now apply pol_mul|intros; apply Rle_0_sqr|easy|]. now apply Rsqr_pos_lt. }
    rewrite (is_RInt_unique (V := R_CompleteNormedModule) _ _ _ _ I) in H. lra. }
  assert (El : l = l').
  { apply SS_eq; [easy|easy|]. intros x. split; intros Hx; apply node_zero.
    - assert (Q := Z x). apply in_map_iff in Hx as Hx'. destruct Hx' as (p & <- & Hp). specialize (Q (proj1 (gr_in n r G p Hp))).
      apply node_zero in Hx. unfold d in Q. lra.
    - assert (Q := Z x). apply in_map_iff in Hx as Hx'. destruct Hx' as (p & <- & Hp). specialize (Q (proj1 (gr_in n r' G' p Hp))).
      apply node_zero in Hx. unfold d in Q. lra. }
  assert (D := SS_NoDup l Hs).
  assert (Hw : forall x w w', In (x, w) r -> In (x, w') r' -> w = w').
  { intros x w w' H1 H2. rewrite <- (quad_lag r x w D H1). rewrite <- (quad_lag r' x w' (SS_NoDup l' Hs') H2).
    fold l l'. rewrite <- El.
    assert (Hp : pol (2 * n) (lag l x)) by (apply pol_le with n; [lia|]; rewrite <- Ll; apply lag_pol; [easy|]; now apply (in_map fst _ (x, w))).
    assert (A := gauss_pol n r _ G Hp). assert (B := gauss_pol n r' _ G' Hp).
    apply (is_RInt_unique (V := R_CompleteNormedModule)) in A. apply (is_RInt_unique (V := R_CompleteNormedModule)) in B. now rewrite <- A, <- B. }
  unfold l, l' in El. clear - El Hw. revert r' El Hw. induction r as [|[x w] r IH]; intros [|[x' w'] r'] El Hw; cbn in El; try easy.
  injection El as -> El. f_equal; [f_equal; apply (Hw x'); now left|]. apply IH; [easy|]. intros; eapply Hw; right; eassumption.
Qed.
