(* Complex arithmetic helpers (no model content): powers, ring/field tactics with
   integer constants, conjugation, exp(i t). *)
From Coq Require Export Reals ZArith Lia Lra Psatz List.
From Coquelicot Require Export Coquelicot.
From Coq Require Import FunctionalExtensionality.
Export ListNotations.
Open Scope C_scope.

(* integer powers of a complex number (numpy `**` with a natural exponent) *)
Fixpoint cpow (z : C) (n : nat) : C :=
  match n with O => RtoC 1 | S k => z * cpow z k end.

Definition IZC (z : Z) : C := RtoC (IZR z).

Lemma cpow_th : power_theory (RtoC 1) Cmult eq N.to_nat cpow.
Proof.
  constructor. intros r n. destruct n as [|p]; [reflexivity|].
  unfold pow_N. simpl N.to_nat.
  induction p as [p IH|p IH|].
  - cbn [pow_pos]. rewrite <- IH. rewrite Pos2Nat.inj_xI. cbn [cpow].
    f_equal.
    assert (H : forall a b, cpow r (a + b) = cpow r a * cpow r b).
    { induction a; intros; simpl; [ring|rewrite IHa; ring]. }
    replace (2 * Pos.to_nat p)%nat with (Pos.to_nat p + Pos.to_nat p)%nat by lia.
    apply H.
  - cbn [pow_pos]. rewrite <- IH. rewrite Pos2Nat.inj_xO.
    assert (H : forall a b, cpow r (a + b) = cpow r a * cpow r b).
    { induction a; intros; simpl; [ring|rewrite IHa; ring]. }
    replace (2 * Pos.to_nat p)%nat with (Pos.to_nat p + Pos.to_nat p)%nat by lia.
    apply H.
  - simpl. ring.
Qed.

Lemma C_morph : ring_morph (RtoC 0) (RtoC 1) Cplus Cmult Cminus Copp eq
   0%Z 1%Z Z.add Z.mul Z.sub Z.opp Z.eqb IZC.
Proof.
  constructor; unfold IZC; intros.
  - reflexivity.
  - reflexivity.
  - now rewrite plus_IZR, RtoC_plus.
  - now rewrite minus_IZR, RtoC_minus.
  - now rewrite mult_IZR, RtoC_mult.
  - now rewrite opp_IZR, RtoC_opp.
  - apply Z.eqb_eq in H. now subst.
Qed.

Lemma C_eqb_complete : forall x y, IZC x = IZC y -> Z.eqb x y = true.
Proof.
  intros x y H. unfold IZC in H. apply RtoC_inj in H. apply eq_IZR in H.
  now apply Z.eqb_eq.
Qed.

Ltac Cconst t :=
  match t with
  | RtoC (IZR ?z) => match isZcst z with true => z | _ => constr:(InitialRing.NotConstant) end
  | _ => constr:(InitialRing.NotConstant)
  end.
Ltac Cnatconst t :=
  match isnatcst t with
  | true => constr:(N.of_nat t)
  | _ => constr:(InitialRing.NotConstant)
  end.

Add Ring CRing : C_ring_theory
  (morphism C_morph, constants [Cconst], power_tac cpow_th [Cnatconst]).
Add Field CField : C_field_theory
  (morphism C_morph, completeness C_eqb_complete, constants [Cconst],
   power_tac cpow_th [Cnatconst]).

Goal forall x : C, (x + 1) * (x + 1) + RtoC 2 * x = x * x + RtoC 4 * x + 1.
Proof. intros. ring. Qed.
Goal forall x : C, cpow x 2 / RtoC 2 + cpow x 2 / RtoC 2 = x * x.
Proof. intros. field. Qed.

Lemma RtoC_neq0 (x : R) : x <> 0%R -> RtoC x <> 0.
Proof. intros H E. apply H. now apply RtoC_inj. Qed.
Lemma RtoC_0_iff (x : R) : RtoC x = 0 <-> x = 0%R.
Proof. split; [apply RtoC_inj| now intros ->]. Qed.

Lemma cpow_add z a b : cpow z (a + b) = cpow z a * cpow z b.
Proof. induction a; simpl; [ring|rewrite IHa; ring]. Qed.
Lemma cpow_mul z w n : cpow (z * w) n = cpow z n * cpow w n.
Proof. induction n; simpl; [ring|rewrite IHn; ring]. Qed.
Lemma cpow_1 n : cpow 1 n = 1.
Proof. induction n; simpl; [ring|rewrite IHn; ring]. Qed.
Lemma cpow_0 n : (0 < n)%nat -> cpow 0 n = 0.
Proof. destruct n; [lia|intros; simpl; ring]. Qed.
Lemma cpow_neq0 (z : C) n : z <> 0 -> cpow z n <> 0.
Proof.
  intros Hz; induction n; simpl.
  - apply RtoC_neq0; intros ?HH; lra.
  - now apply Cmult_neq_0.
Qed.
Lemma cpow_RtoC x n : cpow (RtoC x) n = RtoC (x ^ n).
Proof. induction n; simpl; [reflexivity|rewrite IHn, RtoC_mult; reflexivity]. Qed.
Lemma cpow_pow z a b : cpow (cpow z a) b = cpow z (a * b).
Proof.
  induction b; simpl.
  - now rewrite Nat.mul_0_r.
  - rewrite IHb, <- cpow_add. f_equal; lia.
Qed.

(* conjugation *)
Lemma Cconj_plus x y : Cconj (x + y) = Cconj x + Cconj y.
Proof. unfold Cconj, Cplus; simpl; f_equal; ring. Qed.
Lemma Cconj_mult x y : Cconj (x * y) = Cconj x * Cconj y.
Proof. unfold Cconj, Cmult; simpl; f_equal; ring. Qed.
Lemma Cconj_opp x : Cconj (- x) = - Cconj x.
Proof. reflexivity. Qed.
Lemma Cconj_minus x y : Cconj (x - y) = Cconj x - Cconj y.
Proof. unfold Cminus. rewrite Cconj_plus, Cconj_opp. reflexivity. Qed.
Lemma Cconj_RtoC x : Cconj (RtoC x) = RtoC x.
Proof. unfold Cconj, RtoC; simpl; f_equal; ring. Qed.
Lemma Cconj_inv x : Cconj (/ x) = / Cconj x.
Proof.
  unfold Cconj, Cinv; simpl.
  replace (- snd x * (- snd x * 1))%R with (snd x * (snd x * 1))%R by ring.
  f_equal; unfold Rdiv; ring.
Qed.
Lemma Cconj_div x y : Cconj (x / y) = Cconj x / Cconj y.
Proof. unfold Cdiv. now rewrite Cconj_mult, Cconj_inv. Qed.
Lemma Cconj_conj x : Cconj (Cconj x) = x.
Proof. unfold Cconj; destruct x; simpl; f_equal; ring. Qed.
Lemma Cconj_pow x n : Cconj (cpow x n) = cpow (Cconj x) n.
Proof. induction n; simpl; [apply Cconj_RtoC|now rewrite Cconj_mult, IHn]. Qed.
Lemma Cconj_Ci : Cconj Ci = - Ci.
Proof. unfold Cconj, Ci, Copp; simpl; f_equal; ring. Qed.
Lemma Cconj_inj x y : Cconj x = Cconj y -> x = y.
Proof. intros H. rewrite <- (Cconj_conj x), <- (Cconj_conj y). now rewrite H. Qed.
Lemma Ci_sqr : Ci * Ci = - (1).
Proof. unfold Ci, Cmult, Copp, RtoC; simpl; f_equal; ring. Qed.
Lemma Cconj_fix_real x : Cconj x = x <-> Im x = 0%R.
Proof.
  unfold Cconj, Im; destruct x as [a b]; simpl; split; intros H.
  - injection H; intros; lra.
  - now rewrite H, Ropp_0.
Qed.
Lemma C_eq (x y : C) : Re x = Re y -> Im x = Im y -> x = y.
Proof. destruct x, y; unfold Re, Im; simpl; now intros -> ->. Qed.
Lemma Re_plus x y : Re (x + y) = (Re x + Re y)%R. Proof. reflexivity. Qed.
Lemma Im_plus x y : Im (x + y) = (Im x + Im y)%R. Proof. reflexivity. Qed.
Lemma Re_RtoC x : Re (RtoC x) = x. Proof. reflexivity. Qed.
Lemma Im_RtoC x : Im (RtoC x) = 0%R. Proof. reflexivity. Qed.

(* exp (i t) : numpy's np.exp(1j*t) for real t *)
Definition cexpi (t : R) : C := (cos t, sin t).
Lemma cexpi_plus s t : cexpi (s + t) = cexpi s * cexpi t.
Proof. unfold cexpi, Cmult; simpl. rewrite cos_plus, sin_plus. f_equal; ring. Qed.
Lemma cexpi_0 : cexpi 0 = 1.
Proof. unfold cexpi. now rewrite cos_0, sin_0. Qed.
Lemma cexpi_conj t : Cconj (cexpi t) = cexpi (- t).
Proof. unfold cexpi, Cconj; simpl. now rewrite cos_neg, sin_neg. Qed.
Lemma cexpi_opp_mul t : cexpi (- t) * cexpi t = 1.
Proof. rewrite <- cexpi_plus, Rplus_opp_l. apply cexpi_0. Qed.
Lemma cexpi_pow t n : cpow (cexpi t) n = cexpi (INR n * t).
Proof.
  induction n.
  - simpl. now rewrite Rmult_0_l, cexpi_0.
  - rewrite S_INR. cbn [cpow]. rewrite IHn, <- cexpi_plus. f_equal; ring.
Qed.
Lemma cexpi_2PI t : cexpi (t + 2 * PI) = cexpi t.
Proof. unfold cexpi. now rewrite cos_plus, sin_plus, cos_2PI, sin_2PI, !Rmult_1_r, !Rmult_0_r, Rminus_0_r, Rplus_0_r. Qed.
Lemma cexpi_2PI_Z t (k : Z) : cexpi (t + 2 * PI * IZR k) = cexpi t.
Proof.
  assert (H : forall n t, cexpi (t + 2 * PI * INR n) = cexpi t).
  { induction n; intros.
    - simpl. f_equal; ring.
    - rewrite S_INR. replace (t0 + 2 * PI * (INR n + 1))%R with ((t0 + 2 * PI * INR n) + 2 * PI)%R by ring.
      now rewrite cexpi_2PI. }
  destruct (Z_le_gt_dec 0 k).
  - rewrite <- (Z2Nat.id k) by lia. rewrite <- INR_IZR_INZ. apply H.
  - rewrite <- (H (Z.to_nat (- k)) (t + 2 * PI * IZR k)%R).
    rewrite INR_IZR_INZ, Z2Nat.id, opp_IZR by lia. f_equal; ring.
Qed.
Lemma cexpi_neq0 t : cexpi t <> 0.
Proof.
  intros E. assert (H := cexpi_opp_mul t). rewrite E in H.
  rewrite Cmult_0_r in H. apply RtoC_inj in H. lra.
Qed.

(* sign (-1)^m for an integer m, as a complex number *)
Definition sgnC (m : Z) : C := if Z.even m then RtoC 1 else RtoC (-1).
Lemma sgnC_even m : Z.even m = true -> sgnC m = 1.
Proof. unfold sgnC; now intros ->. Qed.
Lemma sgnC_odd m : Z.even m = false -> sgnC m = RtoC (-1).
Proof. unfold sgnC; now intros ->. Qed.
Lemma sgnC_opp m : sgnC (- m) = sgnC m.
Proof. unfold sgnC. now rewrite Z.even_opp. Qed.
Lemma sgnC_add a b : sgnC (a + b) = sgnC a * sgnC b.
Proof. unfold sgnC. rewrite Z.even_add. destruct (Z.even a), (Z.even b); simpl; ring. Qed.
Lemma sgnC_sub a b : sgnC (a - b) = sgnC a * sgnC b.
Proof. unfold sgnC. rewrite Z.even_sub. destruct (Z.even a), (Z.even b); simpl; ring. Qed.
Lemma sgnC_sq a : sgnC a * sgnC a = 1.
Proof. unfold sgnC. destruct (Z.even a); ring. Qed.
Lemma sgnC_conj a : Cconj (sgnC a) = sgnC a.
Proof. unfold sgnC. destruct (Z.even a); apply Cconj_RtoC. Qed.
Lemma sgnC_abs a : sgnC (Z.abs a) = sgnC a.
Proof. destruct (Z.abs_eq_or_opp a) as [->| ->]; [reflexivity|apply sgnC_opp]. Qed.
Lemma sgnC_0 : sgnC 0 = 1. Proof. reflexivity. Qed.
Lemma sgnC_1 : sgnC 1 = RtoC (-1). Proof. reflexivity. Qed.
Lemma sgnC_succ a : sgnC (a + 1) = - sgnC a.
Proof. rewrite sgnC_add, sgnC_1. ring. Qed.
Lemma sgnC_pred a : sgnC (a - 1) = - sgnC a.
Proof. rewrite sgnC_sub, sgnC_1. ring. Qed.
Lemma sgnC_2mul a b : sgnC (a + 2 * b) = sgnC a.
Proof. unfold sgnC. now rewrite Z.even_add_mul_2. Qed.
Lemma sgnC_pow n : sgnC (Z.of_nat n) = cpow (RtoC (-1)) n.
Proof.
  induction n; [reflexivity|].
  rewrite Nat2Z.inj_succ, <- Z.add_1_r, sgnC_succ, IHn. simpl. ring.
Qed.
Lemma sgnC_neq0 a : sgnC a <> 0.
Proof. unfold sgnC; destruct (Z.even a); apply RtoC_neq0; intros ?HH; lra. Qed.
