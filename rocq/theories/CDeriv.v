(* Derivatives of complex functions of a real variable, and of the solid harmonics. *)
From Verif Require Export TransSpec.
From Verif Require Import TranslationsProofs.
From Verif Require Import Cplx.
Open Scope C_scope.

(* ---- specification: f has derivative d at x (real and imaginary parts) ---- *)
Definition cder (f : R -> C) (x : R) (d : C) : Prop :=
  is_derive (fun t => Re (f t)) x (Re d) /\ is_derive (fun t => Im (f t)) x (Im d).
(* (dx, dy, dz) is the gradient of F at (x, y, z) *)
Definition cgrad (F : vec -> C) (v : vec) (dx dy dz : C) : Prop :=
  let '(x, y, z) := v in
  cder (fun t => F (t, y, z)) x dx /\ cder (fun t => F (x, t, z)) y dy /\ cder (fun t => F (x, y, t)) z dz.

Lemma cder_ext f g x d : (forall t, f t = g t) -> cder f x d -> cder g x d.
Proof. intros H [H1 H2]. split; [apply (is_derive_ext (fun t => Re (f t)))|apply (is_derive_ext (fun t => Im (f t)))]; auto; intros; now rewrite H. Qed.
Lemma cder_val f x d d' : d = d' -> cder f x d -> cder f x d'.
Proof. now intros <-. Qed.
Lemma cder_unique f x d d' : cder f x d -> cder f x d' -> d = d'.
Proof.
  intros [H1 H2] [H3 H4]. apply is_derive_unique in H1, H2, H3, H4. apply C_eq; congruence.
Qed.
Lemma cder_const c x : cder (fun _ => c) x 0.
Proof. split; cbn; auto_derive; auto. Qed.
Lemma cder_id x : cder (fun t => RtoC t) x 1.
Proof. split; cbn; auto_derive; auto. Qed.
Lemma cder_plus f g x d e : cder f x d -> cder g x e -> cder (fun t => f t + g t) x (d + e).
Proof. intros [H1 H2] [H3 H4]. split; cbn; now apply (is_derive_plus (V := R_NormedModule)). Qed.
Lemma cder_opp f x d : cder f x d -> cder (fun t => - f t) x (- d).
Proof. intros [H1 H2]. split; cbn; now apply (is_derive_opp (V := R_NormedModule)). Qed.
Lemma cder_minus f g x d e : cder f x d -> cder g x e -> cder (fun t => f t - g t) x (d - e).
Proof. intros. apply cder_plus; [assumption|now apply cder_opp]. Qed.
Lemma cder_mult f g x d e : cder f x d -> cder g x e -> cder (fun t => f t * g t) x (d * g x + f x * e).
Proof.
  intros [H1 H2] [H3 H4]. split; cbn.
  - assert (G := is_derive_minus (V := R_NormedModule) _ _ _ _ _ (is_derive_mult _ _ _ _ _ H1 H3 Rmult_comm) (is_derive_mult _ _ _ _ _ H2 H4 Rmult_comm)).
    cbn in G. unfold minus, plus, opp, mult in G. cbn in G. unfold mult in G; cbn in G.
    replace (fst d * fst (g x) - snd d * snd (g x) + (fst (f x) * fst e - snd (f x) * snd e))%R
     with (fst d * fst (g x) + fst (f x) * fst e + - (snd d * snd (g x) + snd (f x) * snd e))%R by ring. exact G.
  - assert (G := is_derive_plus (V := R_NormedModule) _ _ _ _ _ (is_derive_mult _ _ _ _ _ H1 H4 Rmult_comm) (is_derive_mult _ _ _ _ _ H2 H3 Rmult_comm)).
    cbn in G. unfold minus, plus, opp, mult in G. cbn in G. unfold mult in G; cbn in G.
    replace (fst d * snd (g x) + snd d * fst (g x) + (fst (f x) * snd e + snd (f x) * fst e))%R
     with (fst d * snd (g x) + fst (f x) * snd e + (snd d * fst (g x) + snd (f x) * fst e))%R by ring. exact G.
Qed.
Lemma cder_scal c f x d : cder f x d -> cder (fun t => c * f t) x (c * d).
Proof. intros H. eapply cder_val; [|apply cder_mult; [apply cder_const|exact H]]. cbv beta. ring. Qed.
Lemma cder_scal_r c f x d : cder f x d -> cder (fun t => f t * c) x (d * c).
Proof. intros H. eapply cder_val; [|apply cder_mult; [exact H|apply cder_const]]. cbv beta. ring. Qed.
Lemma cder_zsum_n (n : nat) : forall a (f : Z -> R -> C) x d, (forall k, (a <= k < a + Z.of_nat n)%Z -> cder (f k) x (d k)) ->
  cder (fun t => zsum a (a + Z.of_nat n) (fun k => f k t)) x (zsum a (a + Z.of_nat n) d).
Proof.
  induction n as [|n IH]; intros a f x d H.
  - rewrite zsum_empty by lia. apply (cder_ext (fun _ => 0)); [intros; now rewrite zsum_empty by lia|apply cder_const].
  - replace (a + Z.of_nat (S n))%Z with (a + Z.of_nat n + 1)%Z by lia. rewrite zsum_last by lia.
    apply (cder_ext (fun t => zsum a (a + Z.of_nat n) (fun k => f k t) + f (a + Z.of_nat n)%Z t)); [intros; now rewrite zsum_last by lia|].
    apply cder_plus; [apply IH; intros; apply H; lia|apply H; lia].
Qed.
Lemma cder_zsum a b (f : Z -> R -> C) x d : (forall k, (a <= k < b)%Z -> cder (f k) x (d k)) ->
  cder (fun t => zsum a b (fun k => f k t)) x (zsum a b d).
Proof.
  intros H. destruct (Z_le_gt_dec b a) as [Hab|Hab].
  - rewrite zsum_empty by lia. apply (cder_ext (fun _ => 0)); [intros; now rewrite zsum_empty by lia|apply cder_const].
  - replace b with (a + Z.of_nat (Z.to_nat (b - a)))%Z in * by lia. now apply cder_zsum_n.
Qed.
Lemma cder_lsum {A} (f : A -> R -> C) x (d : A -> C) (l : list A) : (forall k, In k l -> cder (f k) x (d k)) ->
  cder (fun t => lsum (fun k => f k t) l) x (lsum d l).
Proof.
  induction l as [|a l IH]; intros H; cbn; [apply cder_const|]. apply cder_plus; [apply H; now left|apply IH; intros; apply H; now right].
Qed.

(* ---- divided powers, the trinomial and the solid harmonics ---- *)
Lemma cder_dp (a : R -> C) x a' n : cder a x a' -> cder (fun t => dp (a t) n) x (a' * dp (a x) (n - 1)).
Proof.
  intros H. destruct (Z_lt_le_dec n 0) as [Hn|Hn].
  - apply (cder_ext (fun _ => 0)); [intros; now rewrite dp_neg|]. rewrite dp_neg by lia. eapply cder_val; [|apply cder_const]. ring.
  - pattern n. apply natlike_ind; [| |exact Hn].
    + rewrite dp_neg by lia. apply (cder_ext (fun _ => 1)); [intros; now rewrite dp_0|]. eapply cder_val; [|apply cder_const]. ring.
    + clear n Hn. intros n Hn IH. assert (Hz : RtoC (IZR (Z.succ n)) <> 0) by (apply RtoC_neq0; intros E; apply eq_IZR in E; lia).
      assert (E : forall t : C, dp t (Z.succ n) = / RtoC (IZR (Z.succ n)) * (t * dp t n)).
      { intros t. assert (G := dp_rec t (Z.succ n)). replace (Z.succ n - 1)%Z with n in G by lia. rewrite <- G. field. exact Hz. }
      apply (cder_ext (fun t => / RtoC (IZR (Z.succ n)) * (a t * dp (a t) n))); [intros; now rewrite E|].
      eapply cder_val; [|apply cder_scal; apply cder_mult; [exact H|exact IH]]. cbv beta.
      replace (Z.succ n - 1)%Z with n by lia.
      transitivity (/ RtoC (IZR (Z.succ n)) * a' * (dp (a x) n + a x * dp (a x) (n - 1))); [ring|].
      rewrite <- dp_rec. rewrite succ_IZR, RtoC_plus in *. field. exact Hz.
Qed.
Lemma cder_tri l m (A Z_ B : R -> C) x a c b : cder A x a -> cder Z_ x c -> cder B x b ->
  cder (fun t => tri l m (A t) (Z_ t) (B t)) x
    (a * tri (l - 1) (m - 1) (A x) (Z_ x) (B x) + c * tri (l - 1) m (A x) (Z_ x) (B x) + b * tri (l - 1) (m + 1) (A x) (Z_ x) (B x)).
Proof.
  intros HA HZ HB.
  rewrite (tri_range (l - 1) (m - 1) _ _ _ (-1) (l + 1 + Z.abs l)) by lia.
  rewrite (tri_range (l - 1) m _ _ _ (-1) (l + 1 + Z.abs l)) by lia.
  rewrite (tri_range (l - 1) (m + 1) _ _ _ (-1 - 1) (l + 1 + Z.abs l - 1)) by lia.
  rewrite (zsum_shift 1 (-1 - 1) (l + 1 + Z.abs l - 1)).
  replace (-1 - 1 + 1)%Z with (-1)%Z by ring. replace (l + 1 + Z.abs l - 1 + 1)%Z with (l + 1 + Z.abs l)%Z by ring.
  rewrite <- !zsum_scal_l, <- !zsum_plus.
  apply (cder_ext (fun t => zsum (-1) (l + 1 + Z.abs l) (fun k => trit l m k (A t) (Z_ t) (B t)))).
  { intros t. rewrite (tri_range l m _ _ _ (-1) (l + 1 + Z.abs l)) by lia. reflexivity. }
  apply (cder_zsum (-1) (l + 1 + Z.abs l) (fun k t => trit l m k (A t) (Z_ t) (B t))). intros k _. unfold trit.
  eapply cder_val; [|apply cder_mult; [apply cder_mult|]; apply cder_dp; eassumption]. cbv beta.
  replace (l - 1 - (m - 1) - 2 * k)%Z with (l - m - 2 * k)%Z by ring.
  replace (m - 1 + k)%Z with (m + k - 1)%Z by ring.
  replace (l - 1 - m - 2 * k)%Z with (l - m - 2 * k - 1)%Z by ring.
  replace (l - 1 - (m + 1) - 2 * (k - 1))%Z with (l - m - 2 * k)%Z by ring.
  replace (m + 1 + (k - 1))%Z with (m + k)%Z by ring. ring.
Qed.
(* the gradient of the solid harmonic S_l^m *)
Definition Sdx (l m : Z) (v : vec) : C := (S_ (l - 1) (m + 1) v - S_ (l - 1) (m - 1) v) / 2.
Definition Sdy (l m : Z) (v : vec) : C := Ci / 2 * (S_ (l - 1) (m - 1) v + S_ (l - 1) (m + 1) v).
Definition Sdz (l m : Z) (v : vec) : C := S_ (l - 1) m v.
Lemma S_grad l m v : cgrad (S_ l m) v (Sdx l m v) (Sdy l m v) (Sdz l m v).
Proof.
  destruct v as [[x y] z]. unfold cgrad, Sdx, Sdy, Sdz, S_, solid. split; [|split].
  - eapply cder_val; [|apply (cder_tri l m (fun t => - (RtoC t - Ci * RtoC y) / RtoC 2) (fun _ => RtoC z) (fun t => (RtoC t + Ci * RtoC y) / RtoC 2) x (RtoC (-1) / 2) 0 (1 / 2))].
    + unfold Cdiv. ring.
    + apply (cder_ext (fun t => (RtoC (-1) / 2) * RtoC t + Ci * RtoC y / 2)); [intros; field|].
      eapply cder_val; [|apply cder_plus; [apply cder_scal, cder_id|apply cder_const]]. ring.
    + apply cder_const.
    + apply (cder_ext (fun t => (1 / 2) * RtoC t + Ci * RtoC y / 2)); [intros; field|].
      eapply cder_val; [|apply cder_plus; [apply cder_scal, cder_id|apply cder_const]]. ring.
  - eapply cder_val; [|apply (cder_tri l m (fun t => - (RtoC x - Ci * RtoC t) / RtoC 2) (fun _ => RtoC z) (fun t => (RtoC x + Ci * RtoC t) / RtoC 2) y (Ci / 2) 0 (Ci / 2))].
    + unfold Cdiv. ring.
    + apply (cder_ext (fun t => (Ci / 2) * RtoC t + - RtoC x / 2)); [intros; field|].
      eapply cder_val; [|apply cder_plus; [apply cder_scal, cder_id|apply cder_const]]. ring.
    + apply cder_const.
    + apply (cder_ext (fun t => (Ci / 2) * RtoC t + RtoC x / 2)); [intros; field|].
      eapply cder_val; [|apply cder_plus; [apply cder_scal, cder_id|apply cder_const]]. ring.
  - eapply cder_val; [|apply (cder_tri l m (fun t => - (RtoC x - Ci * RtoC y) / RtoC 2) (fun t => RtoC t) (fun t => (RtoC x + Ci * RtoC y) / RtoC 2) z 0 1 0)].
    + ring.
    + apply cder_const.
    + apply cder_id.
    + apply cder_const.
Qed.
