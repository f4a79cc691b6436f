(* Algebra behind the Wigner matrices (proof device, no model content):
   coefficients of (cX+s)^p (c-sX)^q and their action on the trinomials. *)
From Verif Require Export Solid.
From Coq Require Import FunctionalExtensionality Psatz.
From Verif Require Import Cplx.
Open Scope C_scope.

Definition lin (a b : C) (F : Z -> C) : Z -> C := fun j => a * F (j - 1)%Z + b * F j.
Fixpoint npw (n : nat) (a b : C) (F : Z -> C) : Z -> C :=
  match n with O => F | S k => lin a b (npw k a b F) end.
Definition del0 : Z -> C := fun j => if (j =? 0)%Z then 1 else 0.
Definition Wp (c s : C) (p q : Z) : Z -> C := npw (Z.to_nat p) c s (npw (Z.to_nat q) (- s) c del0).

Lemma lin_comm a b a' b' F : lin a b (lin a' b' F) = lin a' b' (lin a b F).
Proof. apply functional_extensionality; intros j. unfold lin. ring. Qed.
Lemma npw_lin n a b a' b' F : npw n a b (lin a' b' F) = lin a' b' (npw n a b F).
Proof. induction n; [reflexivity|]. cbn [npw]. rewrite IHn. apply lin_comm. Qed.
Lemma Wp_S1 c s p q : (0 <= p)%Z -> Wp c s (p + 1) q = lin c s (Wp c s p q).
Proof. intros. unfold Wp. replace (Z.to_nat (p + 1)) with (S (Z.to_nat p)) by lia. reflexivity. Qed.
Lemma Wp_S2 c s p q : (0 <= q)%Z -> Wp c s p (q + 1) = lin (- s) c (Wp c s p q).
Proof. intros. unfold Wp. replace (Z.to_nat (q + 1)) with (S (Z.to_nat q)) by lia. cbn [npw]. apply npw_lin. Qed.
Lemma Wp_00 c s : Wp c s 0 0 = del0. Proof. reflexivity. Qed.

(* induction on two non-negative integers *)
Lemma Z2_ind (P : Z -> Z -> Prop) : P 0%Z 0%Z ->
  (forall p q, (0 <= p)%Z -> (0 <= q)%Z -> P p q -> P (p + 1)%Z q) ->
  (forall p q, (0 <= p)%Z -> (0 <= q)%Z -> P p q -> P p (q + 1)%Z) ->
  forall p q, (0 <= p)%Z -> (0 <= q)%Z -> P p q.
Proof.
  intros H0 H1 H2 p q Hp Hq. revert p Hp. 
  apply (natlike_ind (fun q => forall p, (0 <= p)%Z -> P p q)); [| |exact Hq].
  - intros p Hp. revert p Hp. apply natlike_ind; [exact H0|]. intros p Hp IH. unfold Z.succ. apply H1; lia || assumption.
  - intros x Hx IH p Hp. unfold Z.succ. apply H2; try lia. now apply IH.
Qed.

Lemma Wp_supp c s p q : (0 <= p)%Z -> (0 <= q)%Z -> forall j, (j < 0 \/ p + q < j)%Z -> Wp c s p q j = 0.
Proof.
  revert p q. apply (Z2_ind (fun p q => forall j, (j < 0 \/ p + q < j)%Z -> Wp c s p q j = 0)).
  - intros j Hj. rewrite Wp_00. unfold del0. rewrite (proj2 (Z.eqb_neq j 0)) by lia. reflexivity.
  - intros p q Hp Hq IH j Hj. rewrite Wp_S1 by assumption. unfold lin. rewrite !IH by lia. ring.
  - intros p q Hp Hq IH j Hj. rewrite Wp_S2 by assumption. unfold lin. rewrite !IH by lia. ring.
Qed.

(* explicit sum *)
Definition Gt (c s : C) (p q j k : Z) : C := dp c (p - k) * dp s k * dp (- s) (j - p + k) * dp c (q - (j - p + k)).
Definition G (c s : C) (p q j : Z) : C := zsum 0 (p + 1) (Gt c s p q j).
Lemma Gt_supp c s p q j k : (k < 0 \/ p < k \/ j - p + k < 0 \/ q < j - p + k)%Z -> Gt c s p q j k = 0.
Proof.
  unfold Gt. intros [H|[H|[H|H]]]; [rewrite (dp_neg s)|rewrite (dp_neg c (p - k))|rewrite (dp_neg (- s))|rewrite (dp_neg c (q - _))]; try lia; ring.
Qed.
Lemma G_range c s p q j a b : (a <= 0)%Z -> (p < b)%Z -> G c s p q j = zsum a b (Gt c s p q j).
Proof. intros. unfold G. apply zsum_supp; intros; [lia|]. apply Gt_supp. lia. Qed.
Lemma G_rec1 c s p q j : RtoC (IZR p) * G c s p q j = c * G c s (p - 1) q (j - 1) + s * G c s (p - 1) q j.
Proof.
  rewrite (G_range c s p q j (-1) (p + 3)), (G_range c s (p - 1) q (j - 1) (-1) (p + 3)), (G_range c s (p - 1) q j (-2) (p + 2)) by lia.
  rewrite (zsum_shift 1 (-2)). change (-2 + 1)%Z with (-1)%Z. replace (p + 2 + 1)%Z with (p + 3)%Z by ring.
  rewrite <- !zsum_scal_l, <- !zsum_plus. apply zsum_ext. intros k Hk. unfold Gt.
  replace (RtoC (IZR p)) with (RtoC (IZR (p - k)) + RtoC (IZR k)) by (rewrite <- RtoC_plus, <- plus_IZR; do 2 f_equal; ring).
  replace (p - 1 - k)%Z with (p - k - 1)%Z by ring. replace (j - 1 - (p - 1) + k)%Z with (j - p + k)%Z by ring.
  replace (p - 1 - (k - 1))%Z with (p - k)%Z by ring. replace (j - (p - 1) + (k - 1))%Z with (j - p + k)%Z by ring.
  transitivity ((RtoC (IZR (p - k)) * dp c (p - k)) * dp s k * dp (- s) (j - p + k) * dp c (q - (j - p + k))
     + dp c (p - k) * (RtoC (IZR k) * dp s k) * dp (- s) (j - p + k) * dp c (q - (j - p + k))); [ring|].
  rewrite !dp_rec. ring.
Qed.
Lemma G_rec2 c s p q j : RtoC (IZR q) * G c s p q j = - s * G c s p (q - 1) (j - 1) + c * G c s p (q - 1) j.
Proof.
  unfold G. rewrite <- !zsum_scal_l, <- !zsum_plus. apply zsum_ext. intros k Hk. unfold Gt.
  replace (RtoC (IZR q)) with (RtoC (IZR (j - p + k)) + RtoC (IZR (q - (j - p + k)))) by (rewrite <- RtoC_plus, <- plus_IZR; do 2 f_equal; ring).
  replace (j - 1 - p + k)%Z with (j - p + k - 1)%Z by ring. replace (q - 1 - (j - p + k - 1))%Z with (q - (j - p + k))%Z by ring.
  replace (q - 1 - (j - p + k))%Z with (q - (j - p + k) - 1)%Z by ring.
  transitivity (dp c (p - k) * dp s k * (RtoC (IZR (j - p + k)) * dp (- s) (j - p + k)) * dp c (q - (j - p + k))
     + dp c (p - k) * dp s k * dp (- s) (j - p + k) * (RtoC (IZR (q - (j - p + k))) * dp c (q - (j - p + k)))); [ring|].
  rewrite !dp_rec. ring.
Qed.
Lemma IZRC_succ p : (0 <= p)%Z -> RtoC (IZR (p + 1)) <> 0.
Proof. intros. apply RtoC_neq0, not_0_IZR. lia. Qed.
Lemma Wp_G c s p q : (0 <= p)%Z -> (0 <= q)%Z -> forall j, Wp c s p q j = RtoC (zfact p * zfact q) * G c s p q j.
Proof.
  revert p q. apply (Z2_ind (fun p q => forall j, Wp c s p q j = RtoC (zfact p * zfact q) * G c s p q j)).
  - intros j. rewrite Wp_00. unfold del0, G. rewrite zsum_first, zsum_empty by lia. unfold Gt.
    replace (j - 0 + 0)%Z with j by ring. replace (0 - 0)%Z with 0%Z by ring. rewrite !dp_0. change (zfact 0) with 1%R.
    destruct (Z.eqb_spec j 0) as [->|Hj].
    + change (0 - 0)%Z with 0%Z. rewrite !dp_0, RtoC_mult. ring.
    + destruct (Z_lt_le_dec j 0); [rewrite (dp_neg (- s)) by lia|rewrite (dp_neg c) by lia]; ring.
  - intros p q Hp Hq IH j. rewrite Wp_S1 by assumption. unfold lin. rewrite !IH.
    assert (E := G_rec1 c s (p + 1) q j). replace (p + 1 - 1)%Z with p in E by ring.
    rewrite zfact_succ by assumption. rewrite !RtoC_mult.
    transitivity (RtoC (zfact p) * RtoC (zfact q) * (c * G c s p q (j - 1) + s * G c s p q j)); [ring|]. rewrite <- E. ring.
  - intros p q Hp Hq IH j. rewrite Wp_S2 by assumption. unfold lin. rewrite !IH.
    assert (E := G_rec2 c s p (q + 1) j). replace (q + 1 - 1)%Z with q in E by ring.
    rewrite zfact_succ by assumption. rewrite !RtoC_mult.
    transitivity (RtoC (zfact p) * RtoC (zfact q) * (- s * G c s p q (j - 1) + c * G c s p q j)); [ring|]. rewrite <- E. ring.
Qed.

(* ---- the reduced matrix V^l_{n,m} and its symmetries ---- *)
Definition V (c s : C) (l n m : Z) : C := G c s (l + m) (l - m) (l + n).
Definition W (c s : C) (l n m : Z) : C := Wp c s (l + m) (l - m) (l + n).
Lemma W_V c s l n m : (Z.abs m <= l)%Z -> W c s l n m = RtoC (zfact (l + m) * zfact (l - m)) * V c s l n m.
Proof. intros. unfold W, V. apply Wp_G; lia. Qed.
Lemma V_wide c s l n m a b : (a <= 0)%Z -> (l + m < b)%Z ->
  V c s l n m = zsum a b (fun k => dp c (l + m - k) * dp s k * dp (- s) (n - m + k) * dp c (l - n - k)).
Proof.
  intros. unfold V. rewrite (G_range _ _ _ _ _ a b) by assumption. apply zsum_ext. intros k _. unfold Gt.
  replace (l + n - (l + m) + k)%Z with (n - m + k)%Z by ring. replace (l - m - (n - m + k))%Z with (l - n - k)%Z by ring. reflexivity.
Qed.
Definition Vt c s l n m k := dp c (l + m - k) * dp s k * dp (- s) (n - m + k) * dp c (l - n - k).
Lemma Vt_supp c s l n m k : (k < 0 \/ l + m < k \/ n - m + k < 0 \/ l - n < k)%Z -> Vt c s l n m k = 0.
Proof.
  unfold Vt. intros [H|[H|[H|H]]]; [rewrite (dp_neg s)|rewrite (dp_neg c (l + m - k))|rewrite (dp_neg (- s))|rewrite (dp_neg c (l - n - k))]; try lia; ring.
Qed.
Lemma V_any c s l n m a b : (a <= 0)%Z -> (l + m < b \/ l - n < b)%Z -> V c s l n m = zsum a b (Vt c s l n m).
Proof.
  intros Ha Hb. rewrite (V_wide c s l n m (Z.min 0 a) (Z.max (l + m + 1) b)) by lia.
  change (fun k => dp c (l + m - k) * dp s k * dp (- s) (n - m + k) * dp c (l - n - k)) with (Vt c s l n m).
  apply zsum_supp; intros; apply Vt_supp; lia.
Qed.
Lemma V_transp c s l n m : V c s l n m = V c (- s) l m n.
Proof.
  rewrite (V_any c s l n m (- Z.abs (n - m)) (Z.abs l + Z.abs n + Z.abs m + 1)) by lia.
  rewrite (V_any c (- s) l m n (- Z.abs (n - m) + (n - m)) (Z.abs l + Z.abs n + Z.abs m + 1 + (n - m))) by lia.
  rewrite (zsum_shift (n - m)). apply zsum_ext. intros k _. unfold Vt.
  replace (l + m - (k - (n - m)))%Z with (l + n - k)%Z by ring. replace (n - m + (k - (n - m)))%Z with k by ring.
  replace (l - n - (k - (n - m)))%Z with (l - m - k)%Z by ring. replace (m - n + k)%Z with (k - (n - m))%Z by ring.
  replace (- - s) with s by ring. ring.
Qed.
Lemma V_opp_s c s l n m : V c (- s) l n m = sgnC (n - m) * V c s l n m.
Proof.
  rewrite (V_any c (- s) l n m 0 (l + m + 1)), (V_any c s l n m 0 (l + m + 1)) by lia.
  rewrite <- zsum_scal_l. apply zsum_ext. intros k _. unfold Vt.
  replace (- - s) with s by ring. rewrite !dp_opp, sgnC_add.
  transitivity ((sgnC (n - m) * sgnC (n - m)) * dp c (l + m - k) * (sgnC k * dp s k) * dp s (n - m + k) * dp c (l - n - k)).
  - rewrite sgnC_sq. ring.
  - ring.
Qed.
Lemma V_opp_c c s l n m : V (- c) s l n m = sgnC (n - m) * V c s l n m.
Proof.
  rewrite (V_any (- c) s l n m 0 (l + m + 1)), (V_any c s l n m 0 (l + m + 1)) by lia.
  rewrite <- zsum_scal_l. apply zsum_ext. intros k _. unfold Vt. rewrite !(dp_opp c).
  replace (sgnC (n - m)) with (sgnC (l + m - k) * sgnC (l - n - k)).
  - ring.
  - rewrite <- sgnC_add. replace (l + m - k + (l - n - k))%Z with (- (n - m) + 2 * (l - k))%Z by ring.
    now rewrite sgnC_2mul, sgnC_opp.
Qed.
Lemma V_opp_both c s l n m : V (- c) (- s) l n m = V c s l n m.
Proof. rewrite V_opp_c, V_opp_s, Cmult_assoc, sgnC_sq. ring. Qed.
Lemma V_neg c s l n m : V c s l (- n) (- m) = sgnC (n - m) * V c s l n m.
Proof.
  rewrite <- V_opp_s.
  rewrite (V_any c s l (- n) (- m) (- Z.abs (n - m)) (Z.abs l + Z.abs n + Z.abs m + 1)) by lia.
  rewrite (V_any c (- s) l n m (- Z.abs (n - m) - (n - m)) (Z.abs l + Z.abs n + Z.abs m + 1 - (n - m))) by lia.
  rewrite (zsum_shift (- (n - m))). apply zsum_ext. intros k _. unfold Vt.
  replace (l + - m - (k - - (n - m)))%Z with (l - n - k)%Z by ring. replace (k - - (n - m))%Z with (n - m + k)%Z by ring.
  replace (- n - - m + (n - m + k))%Z with k by ring. replace (l - - n - (n - m + k))%Z with (l + m - k)%Z by ring.
  replace (- - s) with s by ring. ring.
Qed.
Lemma V_flip c s l n m : V c s l (- m) (- n) = V c s l n m.
Proof. rewrite V_neg, V_transp, V_opp_s, Cmult_assoc. replace (m - n)%Z with (- (n - m))%Z by ring. rewrite sgnC_opp, sgnC_sq. ring. Qed.
Lemma V_zero c s l n m : (l < Z.abs n \/ l < Z.abs m)%Z -> V c s l n m = 0.
Proof. intros H. rewrite (V_any c s l n m 0 (l + m + 1)) by lia. apply zsum_0. intros k Hk. apply Vt_supp. lia. Qed.
Lemma V_conj c s l n m : Cconj (V c s l n m) = V (Cconj c) (Cconj s) l n m.
Proof. unfold V, G. rewrite zsum_conj. apply zsum_ext. intros. unfold Gt. now rewrite !Cconj_mult, !dp_conj, Cconj_opp. Qed.
(* identity *)
Lemma V_id l n m : (Z.abs m <= l)%Z -> V 1 0 l n m = if (n =? m)%Z then / RtoC (zfact (l + m) * zfact (l - m)) else 0.
Proof.
  intros H. rewrite (V_any 1 0 l n m 0 (l + m + 1)) by lia. replace (- (0) : C) with (RtoC 0) by ring.
  rewrite (zsum_single _ _ 0).
  - unfold Vt. replace (- (0) : C) with (RtoC 0) by ring. destruct (Z.eqb_spec n m) as [->|Hn].
    + replace (m - m + 0)%Z with 0%Z by ring. rewrite !dp_0, !Z.sub_0_r, !dp_nonneg by lia. rewrite !cpow_1, RtoC_mult.
      field. split; apply zfactC_neq0.
    + rewrite (dp_zero (n - m + 0)) by lia. ring.
  - lia.
  - intros k Hk Hk0. unfold Vt. rewrite (dp_zero k) by assumption. ring.
Qed.

(* ---- composition ---- *)
Lemma Wp_comp c1 s1 c2 s2 p q : (0 <= p)%Z -> (0 <= q)%Z -> forall J,
  zsum 0 (p + q + 1) (fun j => Wp c1 s1 p q j * Wp c2 s2 j (p + q - j) J) = Wp (c1 * c2 - s1 * s2) (c1 * s2 + s1 * c2) p q J.
Proof.
  set (c := c1 * c2 - s1 * s2). set (s := c1 * s2 + s1 * c2). revert p q.
  apply (Z2_ind (fun p q => forall J, zsum 0 (p + q + 1) (fun j => Wp c1 s1 p q j * Wp c2 s2 j (p + q - j) J) = Wp c s p q J)).
  - intros J. rewrite zsum_first, zsum_empty by lia. simpl (0 + 0 - 0)%Z. rewrite !Wp_00. unfold del0 at 1. simpl (0 =? 0)%Z. cbv iota. ring.
  - intros p q Hp Hq IH J. rewrite (Wp_S1 c s) by assumption. unfold lin. rewrite <- !IH. rewrite (Wp_S1 c1 s1) by assumption.
    unfold lin at 1.
    rewrite (zsum_ext _ _ _ (fun j => c1 * (Wp c1 s1 p q (j - 1) * Wp c2 s2 j (p + 1 + q - j) J) + s1 * (Wp c1 s1 p q j * Wp c2 s2 j (p + 1 + q - j) J))).
    2:{ intros; ring. }
    rewrite zsum_plus, !zsum_scal_l.
    rewrite (zsum_first 0 (p + 1 + q + 1)) by lia. rewrite (Wp_supp c1 s1 p q Hp Hq (0 - 1)) by lia.
    rewrite (zsum_split (p + q + 1) 0 (p + 1 + q + 1)) by lia. replace (p + 1 + q + 1)%Z with (p + q + 1 + 1)%Z by ring.
    rewrite zsum_one. rewrite (Wp_supp c1 s1 p q Hp Hq (p + q + 1)) by lia.
    rewrite (zsum_shift (-1) (0 + 1)). change (0 + 1 + -1)%Z with 0%Z. replace (p + q + 1 + 1 + -1)%Z with (p + q + 1)%Z by ring.
    rewrite !Cmult_0_l, Cplus_0_l, Cplus_0_r. rewrite <- !zsum_scal_l, <- !zsum_plus. apply zsum_ext. intros j Hj.
    replace (j - -1 - 1)%Z with j by ring. replace (j - -1)%Z with (j + 1)%Z by ring.
    replace (p + 1 + q - (j + 1))%Z with (p + q - j)%Z by ring. replace (p + 1 + q - j)%Z with (p + q - j + 1)%Z by ring.
    rewrite (Wp_S1 c2 s2 j), (Wp_S2 c2 s2 j) by lia. unfold lin, c, s. ring.
  - intros p q Hp Hq IH J. rewrite (Wp_S2 c s) by assumption. unfold lin. rewrite <- !IH. rewrite (Wp_S2 c1 s1) by assumption.
    unfold lin at 1.
    rewrite (zsum_ext _ _ _ (fun j => (- s1) * (Wp c1 s1 p q (j - 1) * Wp c2 s2 j (p + (q + 1) - j) J) + c1 * (Wp c1 s1 p q j * Wp c2 s2 j (p + (q + 1) - j) J))).
    2:{ intros; ring. }
    rewrite zsum_plus, !zsum_scal_l.
    rewrite (zsum_first 0 (p + (q + 1) + 1)) by lia. rewrite (Wp_supp c1 s1 p q Hp Hq (0 - 1)) by lia.
    rewrite (zsum_split (p + q + 1) 0 (p + (q + 1) + 1)) by lia. replace (p + (q + 1) + 1)%Z with (p + q + 1 + 1)%Z by ring.
    rewrite zsum_one. rewrite (Wp_supp c1 s1 p q Hp Hq (p + q + 1)) by lia.
    rewrite (zsum_shift (-1) (0 + 1)). change (0 + 1 + -1)%Z with 0%Z. replace (p + q + 1 + 1 + -1)%Z with (p + q + 1)%Z by ring.
    rewrite !Cmult_0_l, Cplus_0_l, Cplus_0_r. rewrite <- !zsum_scal_l, <- !zsum_plus. apply zsum_ext. intros j Hj.
    replace (j - -1 - 1)%Z with j by ring. replace (j - -1)%Z with (j + 1)%Z by ring.
    replace (p + (q + 1) - (j + 1))%Z with (p + q - j)%Z by ring. replace (p + (q + 1) - j)%Z with (p + q - j + 1)%Z by ring.
    rewrite (Wp_S1 c2 s2 j), (Wp_S2 c2 s2 j) by lia. unfold lin, c, s. ring.
Qed.
Lemma W_comp c1 s1 c2 s2 l n m : (Z.abs m <= l)%Z ->
  zsum (- l) (l + 1) (fun k => W c2 s2 l n k * W c1 s1 l k m) = W (c1 * c2 - s1 * s2) (c1 * s2 + s1 * c2) l n m.
Proof.
  intros H. unfold W at 3. rewrite <- Wp_comp by lia. rewrite (zsum_shift l (- l)). replace (- l + l)%Z with 0%Z by ring.
  replace (l + 1 + l)%Z with (l + m + (l - m) + 1)%Z by ring. apply zsum_ext. intros j Hj. unfold W.
  replace (l + (j - l))%Z with j by ring. replace (l - (j - l))%Z with (l + m + (l - m) - j)%Z by ring. ring.
Qed.

(* ---- action on trinomials ---- *)
Definition rotA (c s A z B : C) : C := A * (c * c) - z * (c * s) + B * (s * s).
Definition rotZ (c s A z B : C) : C := RtoC 2 * A * (c * s) + z * (c * c - s * s) - RtoC 2 * B * (c * s).
Definition rotB (c s A z B : C) : C := A * (s * s) + z * (s * c) + B * (c * c).
Lemma tri_act_gen c s A z B p q : (0 <= p)%Z -> (0 <= q)%Z -> forall (k : nat) J,
  zsum (- Z.of_nat k) (Z.of_nat k + 1) (fun m => tri (Z.of_nat k) m A z B * Wp c s (p + Z.of_nat k + m) (q + Z.of_nat k - m) J)
  = zsum 0 (p + q + 1) (fun j => Wp c s p q j * tri (Z.of_nat k) (J - Z.of_nat k - j) (rotA c s A z B) (rotZ c s A z B) (rotB c s A z B)).
Proof.
  intros Hp Hq. set (A' := rotA c s A z B). set (z' := rotZ c s A z B). set (B' := rotB c s A z B).
  induction k as [|k IH]; intros J.
  - change (Z.of_nat 0) with 0%Z. rewrite (zsum_first (- 0)), zsum_empty by lia. change (- 0)%Z with 0%Z. rewrite tri_0_0.
    rewrite !Z.add_0_r, !Z.sub_0_r.
    destruct (Z_lt_le_dec J 0) as [H|H]; [|destruct (Z_lt_le_dec (p + q) J)].
    + rewrite Wp_supp by lia. rewrite zsum_0; [ring|]. intros j Hj. rewrite tri_0 by lia. ring.
    + rewrite Wp_supp by lia. rewrite zsum_0; [ring|]. intros j Hj. rewrite tri_0 by lia. ring.
    + rewrite (zsum_single _ _ J); [|lia|intros j Hj Hn; rewrite tri_0 by lia; ring]. rewrite Z.sub_diag, tri_0_0. ring.
  - set (K := Z.of_nat k) in *. replace (Z.of_nat (S k)) with (K + 1)%Z by lia.
    assert (HK : (0 <= K)%Z) by lia.
    assert (E : forall x y : C, RtoC (IZR (K + 1)) * x = RtoC (IZR (K + 1)) * y -> x = y).
    { intros x y H. assert (Hn := IZRC_succ K HK).
      transitivity (RtoC (IZR (K + 1)) * x / RtoC (IZR (K + 1))); [field; assumption|]. rewrite H. field. assumption. }
    apply E. rewrite <- !zsum_scal_l.
    (* left *)
    rewrite (zsum_ext _ _ _ (fun m => A * (tri K (m + -1) A z B * Wp c s (p + (K + 1) + m) (q + (K + 1) - m) J)
        + z * (tri K m A z B * Wp c s (p + (K + 1) + m) (q + (K + 1) - m) J)
        + B * (tri K (m + 1) A z B * Wp c s (p + (K + 1) + m) (q + (K + 1) - m) J))).
    2:{ intros m _. rewrite Cmult_assoc, tri_rec. replace (K + 1 - 1)%Z with K by ring. replace (m + -1)%Z with (m - 1)%Z by ring. ring. }
    rewrite !zsum_plus, !zsum_scal_l.
    assert (F : forall e (Ph : Z -> C), (-1 <= e <= 1)%Z ->
       zsum (- (K + 1)) (K + 1 + 1) (fun m => tri K (m + e) A z B * Ph m)
       = zsum (- K) (K + 1) (fun m => tri K m A z B * Ph (m - e)%Z)).
    { intros e Ph He. rewrite (zsum_shift e). 
      rewrite (zsum_ext _ _ _ (fun m => tri K m A z B * Ph (m - e)%Z)).
      2:{ intros m _. do 2 f_equal. ring. }
      apply zsum_supp; intros m H1 H2; [|lia]. rewrite tri_zero by lia. ring. }
    rewrite (F (-1)%Z (fun m => Wp c s (p + (K + 1) + m) (q + (K + 1) - m) J)) by lia.
    rewrite (zsum_ext _ _ (fun m => tri K m A z B * Wp c s (p + (K + 1) + m) (q + (K + 1) - m) J) (fun m => tri K (m + 0) A z B * Wp c s (p + (K + 1) + m) (q + (K + 1) - m) J))
      by (intros; now rewrite Z.add_0_r).
    rewrite (F 0%Z (fun m => Wp c s (p + (K + 1) + m) (q + (K + 1) - m) J)) by lia.
    rewrite (F 1%Z (fun m => Wp c s (p + (K + 1) + m) (q + (K + 1) - m) J)) by lia.
    rewrite <- !zsum_scal_l, <- !zsum_plus.
    rewrite (zsum_ext _ _ _ (fun m => A' * (tri K m A z B * Wp c s (p + K + m) (q + K - m) (J - 2))
        + z' * (tri K m A z B * Wp c s (p + K + m) (q + K - m) (J - 1))
        + B' * (tri K m A z B * Wp c s (p + K + m) (q + K - m) J))).
    2:{ intros m Hm.
        replace (p + (K + 1) + (m - -1))%Z with (p + K + m + 1 + 1)%Z by ring. replace (q + (K + 1) - (m - -1))%Z with (q + K - m)%Z by ring.
        replace (p + (K + 1) + (m - 0))%Z with (p + K + m + 1)%Z by ring. replace (q + (K + 1) - (m - 0))%Z with (q + K - m + 1)%Z by ring.
        replace (p + (K + 1) + (m - 1))%Z with (p + K + m)%Z by ring. replace (q + (K + 1) - (m - 1))%Z with (q + K - m + 1 + 1)%Z by ring.
        rewrite !Wp_S2, !Wp_S1 by lia. unfold lin. replace (J - 1 - 1)%Z with (J - 2)%Z by ring. unfold A', z', B', rotA, rotZ, rotB. ring. }
    rewrite !zsum_plus, !zsum_scal_l, !IH. rewrite <- !zsum_scal_l, <- !zsum_plus. apply zsum_ext. intros j _.
    symmetry. transitivity (Wp c s p q j * (RtoC (IZR (K + 1)) * tri (K + 1) (J - (K + 1) - j) A' z' B')); [ring|]. rewrite tri_rec.
    replace (K + 1 - 1)%Z with K by ring. replace (J - (K + 1) - j - 1)%Z with (J - 2 - K - j)%Z by ring.
    replace (J - (K + 1) - j)%Z with (J - 1 - K - j)%Z by ring. replace (J - 1 - K - j + 1)%Z with (J - K - j)%Z by ring. ring.
Qed.
Lemma tri_act c s A z B l n : (0 <= l)%Z ->
  tri l n (rotA c s A z B) (rotZ c s A z B) (rotB c s A z B) = zsum (- l) (l + 1) (fun m => W c s l n m * tri l m A z B).
Proof.
  intros Hl. assert (E := tri_act_gen c s A z B 0 0 ltac:(lia) ltac:(lia) (Z.to_nat l) (l + n)). rewrite Z2Nat.id in E by lia.
  rewrite (zsum_first 0 (0 + 0 + 1)), (zsum_empty (0 + 1)) in E by lia. rewrite Wp_00 in E. unfold del0 in E. simpl (0 =? 0)%Z in E. cbv iota in E.
  replace (l + n - l - 0)%Z with n in E by ring. rewrite Cmult_1_l, Cplus_0_r in E. rewrite <- E. apply zsum_ext. intros m _. unfold W.
  rewrite !Z.add_0_l. ring.
Qed.
(* covariance: multiplication by a trinomial intertwines W^l and W^{l+k} *)
Lemma tri_cov c s A z B l k M m : (Z.abs m <= l)%Z -> (0 <= k)%Z ->
  zsum (- (l + k)) (l + k + 1) (fun M' => W c s (l + k) M M' * tri k (M' - m) A z B)
  = zsum (- l) (l + 1) (fun n => W c s l n m * tri k (M - n) (rotA c s A z B) (rotZ c s A z B) (rotB c s A z B)).
Proof.
  intros Hm Hk. assert (E := tri_act_gen c s A z B (l + m) (l - m) ltac:(lia) ltac:(lia) (Z.to_nat k) (l + k + M)).
  rewrite Z2Nat.id in E by lia.
  transitivity (zsum (- k) (k + 1) (fun m0 => tri k m0 A z B * Wp c s (l + m + k + m0) (l - m + k - m0) (l + k + M))).
  - rewrite (zsum_shift m (- k)).
    transitivity (zsum (- (l + k)) (l + k + 1) (fun M' => tri k (M' - m) A z B * Wp c s (l + m + k + (M' - m)) (l - m + k - (M' - m)) (l + k + M))).
    + apply zsum_ext. intros M' _. unfold W. replace (l + m + k + (M' - m))%Z with (l + k + M')%Z by ring.
      replace (l - m + k - (M' - m))%Z with (l + k - M')%Z by ring. ring.
    + apply zsum_supp; intros M' H1 H2; [|lia]. rewrite tri_zero by lia. ring.
  - rewrite E. rewrite (zsum_shift l (- l)). replace (- l + l)%Z with 0%Z by ring. replace (l + 1 + l)%Z with (l + m + (l - m) + 1)%Z by ring.
    apply zsum_ext. intros j _. unfold W. replace (l + (j - l))%Z with j by ring. do 2 f_equal. ring.
Qed.

(* ---- ladder recursion ---- *)
Definition Jop (N : Z) (F : Z -> C) : Z -> C := fun j => RtoC (IZR (N - (j - 1))) * F (j - 1)%Z - RtoC (IZR (j + 1)) * F (j + 1)%Z.
Lemma Jop_lin N a b F j : Jop (N + 1) (lin a b F) j = lin a b (Jop N F) j + lin b (- a) F j.
Proof.
  unfold Jop, lin. replace (j - 1 + 1)%Z with j by ring. replace (j + 1 - 1)%Z with j by ring.
  replace (N + 1 - (j - 1))%Z with (N - (j - 1) + 1)%Z by ring. replace (N - (j - 1 - 1))%Z with (N - (j - 1) + 1)%Z by ring.
  rewrite !(plus_IZR _ 1), !RtoC_plus. ring.
Qed.
Definition Wx c s p q j : C := if ((p <? 0) || (q <? 0))%bool%Z then 0 else Wp c s p q j.
Lemma Wx_in c s p q j : (0 <= p)%Z -> (0 <= q)%Z -> Wx c s p q j = Wp c s p q j.
Proof. intros. unfold Wx. now rewrite (proj2 (Z.ltb_ge p 0)), (proj2 (Z.ltb_ge q 0)) by lia. Qed.
Lemma Wx_out c s p q j : (p < 0 \/ q < 0)%Z -> Wx c s p q j = 0.
Proof. intros. unfold Wx. destruct (Z.ltb_spec p 0), (Z.ltb_spec q 0); try lia; reflexivity. Qed.
Lemma J_Wp c s p q : (0 <= p)%Z -> (0 <= q)%Z -> forall j,
  Jop (p + q) (Wp c s p q) j = - RtoC (IZR p) * Wx c s (p - 1) (q + 1) j + RtoC (IZR q) * Wx c s (p + 1) (q - 1) j.
Proof.
  revert p q. apply (Z2_ind (fun p q => forall j, Jop (p + q) (Wp c s p q) j = - RtoC (IZR p) * Wx c s (p - 1) (q + 1) j + RtoC (IZR q) * Wx c s (p + 1) (q - 1) j)).
  - intros j. rewrite !Wx_out by lia. unfold Jop. rewrite Wp_00. unfold del0.
    destruct (Z.eqb_spec (j - 1) 0).
    + replace j with 1%Z by lia. simpl. ring.
    + destruct (Z.eqb_spec (j + 1) 0) as [->|]; ring.
  - intros p q Hp Hq IH j. replace (p + 1 + q)%Z with (p + q + 1)%Z by ring.
    rewrite (Wp_S1 c s p q) by assumption. rewrite Jop_lin. unfold lin. rewrite !IH.
    replace (p + 1 - 1)%Z with p by ring. rewrite (Wx_in c s p (q + 1)) by lia. rewrite (Wp_S2 c s p q) by lia. unfold lin.
    rewrite plus_IZR, RtoC_plus.
    assert (E1 : forall i, RtoC (IZR p) * (c * Wx c s (p - 1) (q + 1) (i - 1) + s * Wx c s (p - 1) (q + 1) i) = RtoC (IZR p) * (- s * Wp c s p q (i - 1) + c * Wp c s p q i)).
    { intros i. destruct (Z.eq_dec p 0) as [->|]; [ring|]. rewrite !Wx_in by lia. f_equal.
      replace p with (p - 1 + 1)%Z at 3 4 by ring. rewrite (Wp_S1 c s (p - 1) q), (Wp_S2 c s (p - 1) q) by lia. unfold lin. ring. }
    assert (E2 : forall i, RtoC (IZR q) * Wx c s (p + 1 + 1) (q - 1) i = RtoC (IZR q) * (c * Wx c s (p + 1) (q - 1) (i - 1) + s * Wx c s (p + 1) (q - 1) i)).
    { intros i. destruct (Z.eq_dec q 0) as [->|]; [ring|]. rewrite !Wx_in by lia. f_equal. rewrite (Wp_S1 c s (p + 1)) by lia. reflexivity. }
    rewrite E2.
    transitivity (- (RtoC (IZR p) * (c * Wx c s (p - 1) (q + 1) (j - 1) + s * Wx c s (p - 1) (q + 1) j))
       + RtoC (IZR q) * (c * Wx c s (p + 1) (q - 1) (j - 1) + s * Wx c s (p + 1) (q - 1) j)
       + (s * Wp c s p q (j - 1) - c * Wp c s p q j)); [ring|]. rewrite E1. ring.
  - intros p q Hp Hq IH j. replace (p + (q + 1))%Z with (p + q + 1)%Z by ring.
    rewrite (Wp_S2 c s p q) by assumption. rewrite Jop_lin. unfold lin. rewrite !IH.
    replace (q + 1 - 1)%Z with q by ring. rewrite (Wx_in c s (p + 1) q) by lia. rewrite (Wp_S1 c s p q) by lia. unfold lin.
    rewrite (plus_IZR q), RtoC_plus.
    assert (E1 : forall i, RtoC (IZR q) * (- s * Wx c s (p + 1) (q - 1) (i - 1) + c * Wx c s (p + 1) (q - 1) i) = RtoC (IZR q) * (c * Wp c s p q (i - 1) + s * Wp c s p q i)).
    { intros i. destruct (Z.eq_dec q 0) as [->|]; [ring|]. rewrite !Wx_in by lia. f_equal.
      replace q with (q - 1 + 1)%Z at 3 4 by ring. rewrite (Wp_S2 c s p (q - 1)), (Wp_S1 c s p (q - 1)) by lia. unfold lin. ring. }
    assert (E2 : forall i, RtoC (IZR p) * Wx c s (p - 1) (q + 1 + 1) i = RtoC (IZR p) * (- s * Wx c s (p - 1) (q + 1) (i - 1) + c * Wx c s (p - 1) (q + 1) i)).
    { intros i. destruct (Z.eq_dec p 0) as [->|]; [ring|]. rewrite !Wx_in by lia. f_equal. rewrite (Wp_S2 c s (p - 1) (q + 1)) by lia. reflexivity. }
    transitivity (- (RtoC (IZR p) * (- s * Wx c s (p - 1) (q + 1) (j - 1) + c * Wx c s (p - 1) (q + 1) j))
       + RtoC (IZR q) * (- s * Wx c s (p + 1) (q - 1) (j - 1) + c * Wx c s (p + 1) (q - 1) j)
       + (c * Wp c s p q (j - 1) + s * Wp c s p q j)); [ring|]. rewrite E1, <- E2. ring.
Qed.
(* on V: (l-n+1) V_{n-1,m} - (l+n+1) V_{n+1,m} = -(l-m+1) V_{n,m-1} + (l+m+1) V_{n,m+1} *)
Lemma V_ladder c s l n m : (Z.abs m <= l)%Z ->
  RtoC (IZR (l - n + 1)) * V c s l (n - 1) m - RtoC (IZR (l + n + 1)) * V c s l (n + 1) m
  = - RtoC (IZR (l - m + 1)) * V c s l n (m - 1) + RtoC (IZR (l + m + 1)) * V c s l n (m + 1).
Proof.
  intros Hm. assert (E := J_Wp c s (l + m) (l - m) ltac:(lia) ltac:(lia) (l + n)). unfold Jop in E.
  replace (l + m + (l - m) - (l + n - 1))%Z with (l - n + 1)%Z in E by ring.
  replace (l + n - 1)%Z with (l + (n - 1))%Z in E by ring. replace (l + n + 1)%Z with (l + (n + 1))%Z in E at 2 by ring.
  fold (W c s l (n - 1) m) (W c s l (n + 1) m) in E. rewrite !W_V in E by assumption.
  assert (E1 : RtoC (IZR (l + m)) * Wx c s (l + m - 1) (l - m + 1) (l + n) = RtoC (zfact (l + m) * zfact (l - m)) * (RtoC (IZR (l - m + 1)) * V c s l n (m - 1))).
  { destruct (Z.eq_dec (l + m) 0) as [E0|E0].
    - rewrite (V_zero c s l n (m - 1)) by lia. rewrite E0. ring.
    - rewrite Wx_in by lia. replace (l + m - 1)%Z with (l + (m - 1))%Z by ring. replace (l - m + 1)%Z with (l - (m - 1))%Z at 1 by ring.
      fold (W c s l n (m - 1)). rewrite W_V by lia. replace (l - (m - 1))%Z with (l - m + 1)%Z by ring. rewrite (zfact_succ (l - m)) by lia.
      rewrite (zfact_rec (l + m)) by lia. replace (l + m - 1)%Z with (l + (m - 1))%Z by ring. rewrite !RtoC_mult. ring. }
  assert (E2 : RtoC (IZR (l - m)) * Wx c s (l + m + 1) (l - m - 1) (l + n) = RtoC (zfact (l + m) * zfact (l - m)) * (RtoC (IZR (l + m + 1)) * V c s l n (m + 1))).
  { destruct (Z.eq_dec (l - m) 0) as [E0|E0].
    - rewrite (V_zero c s l n (m + 1)) by lia. rewrite E0. ring.
    - rewrite Wx_in by lia. replace (l - m - 1)%Z with (l - (m + 1))%Z by ring. replace (l + m + 1)%Z with (l + (m + 1))%Z at 1 by ring.
      fold (W c s l n (m + 1)). rewrite W_V by lia. replace (l + (m + 1))%Z with (l + m + 1)%Z by ring. rewrite (zfact_succ (l + m)) by lia.
      rewrite (zfact_rec (l - m)) by lia. replace (l - m - 1)%Z with (l - (m + 1))%Z by ring. rewrite !RtoC_mult. ring. }
  assert (Hn : RtoC (zfact (l + m) * zfact (l - m)) <> 0) by (rewrite RtoC_mult; apply Cmult_neq_0; apply zfactC_neq0).
  set (F := RtoC (zfact (l + m) * zfact (l - m))) in *.
  assert (R : forall x y : C, F * x = F * y -> x = y).
  { intros x y H. transitivity (F * x / F); [field; assumption|]. rewrite H. field. assumption. }
  apply R.
  transitivity (- (RtoC (IZR (l + m)) * Wx c s (l + m - 1) (l - m + 1) (l + n)) + RtoC (IZR (l - m)) * Wx c s (l + m + 1) (l - m - 1) (l + n)).
  - transitivity (RtoC (IZR (l - n + 1)) * (F * V c s l (n - 1) m) - RtoC (IZR (l + n + 1)) * (F * V c s l (n + 1) m)); [ring|].
    rewrite E. ring.
  - rewrite E1, E2. ring.
Qed.

(* ---- the middle column and the row m' = 1 ---- *)
Lemma W_mid c s l n : (0 <= l)%Z -> W c s l n 0 = RtoC (zfact l) * tri l n (- (c * s)) (c * c - s * s) (s * c).
Proof.
  intros Hl. assert (E := tri_act c s 0 1 0 l n Hl).
  rewrite (zsum_single _ _ 0) in E; [|lia|].
  - unfold rotA, rotZ, rotB in E. 
    replace (0 * (c * c) - 1 * (c * s) + 0 * (s * s)) with (- (c * s)) in E by ring.
    replace (RtoC 2 * 0 * (c * s) + 1 * (c * c - s * s) - RtoC 2 * 0 * (c * s)) with (c * c - s * s) in E by ring.
    replace (0 * (s * s) + 1 * (s * c) + 0 * (c * c)) with (s * c) in E by ring.
    rewrite E. unfold tri. rewrite (zsum_single _ _ 0); [|lia|intros k Hk Hn; rewrite (dp_zero k) by assumption; ring].
    rewrite Z.add_0_l, !dp_0. replace (l - 0 - 2 * 0)%Z with l by ring. rewrite dp_nonneg, cpow_1 by lia. field. apply zfactC_neq0.
  - intros k Hk Hn. unfold tri. rewrite zsum_0; [ring|]. intros i Hi.
    destruct (Z.eq_dec i 0) as [->|]; [rewrite (dp_zero (k + 0)) by lia|rewrite (dp_zero i) by assumption]; ring.
Qed.
Lemma W_step c s l n m : c * c + s * s = 1 -> (Z.abs m <= l)%Z ->
  W c s l n m = s * s * W c s (l + 1) (n - 1) (m + 1) + c * c * W c s (l + 1) (n - 1) (m - 1) + RtoC 2 * (s * c) * W c s (l + 1) (n - 1) m.
Proof.
  intros Hcs Hm. unfold W. replace (l + 1 + (n - 1))%Z with (l + n)%Z by ring.
  replace (l + 1 + (m + 1))%Z with (l + m + 1 + 1)%Z by ring. replace (l + 1 - (m + 1))%Z with (l - m)%Z by ring.
  replace (l + 1 + (m - 1))%Z with (l + m)%Z by ring. replace (l + 1 - (m - 1))%Z with (l - m + 1 + 1)%Z by ring.
  replace (l + 1 + m)%Z with (l + m + 1)%Z by ring. replace (l + 1 - m)%Z with (l - m + 1)%Z by ring.
  rewrite !Wp_S2, !Wp_S1 by lia. unfold lin. set (F := Wp c s (l + m) (l - m)).
  transitivity ((c * c + s * s) * (c * c + s * s) * F (l + n)%Z); [rewrite Hcs; ring|]. ring.
Qed.
