(* The common part of two crossed cylinders: its monomial integrals *)
From Coq Require Import Reals Lra Lia ZArith.
From Coquelicot Require Import Coquelicot.
From Verif Require Import AchProofs3 NumExist EllSpec.
From Verif Require Import Cplx.
From Verif Require Import Elliptic.
Open Scope R_scope.

Definition G (m : R) (a b c : nat) : R := RInt (fun u => sin u ^ a * cos u ^ b * D m u ^ c) (- h) h.
Lemma pow_cont (f : R -> R) k (u : R) : continuous f u -> continuous (fun x => f x ^ k) u.
Proof.
  intros H. induction k as [|k IH].
  - cbn [pow]. apply continuous_const.
  - apply (continuous_ext (fun x => f x * f x ^ k)); [reflexivity|]. now apply prod_cont.
Qed.
Lemma cont_cos (u : R) : continuous cos u. Proof. apply cont_ex. auto_derive. easy. Qed.
Lemma G_cont m a b c (u : R) : continuous (fun u => sin u ^ a * cos u ^ b * D m u ^ c) u.
Proof.
  apply (prod_cont (fun u => sin u ^ a * cos u ^ b)); [apply (prod_cont (fun u => sin u ^ a))|]; apply pow_cont; [apply cont_sin|apply cont_cos|apply D_cont].
Qed.
Lemma G_is m a b c : is_RInt (fun u => sin u ^ a * cos u ^ b * D m u ^ c) (- h) h (G m a b c).
Proof. apply (is_int (fun u => sin u ^ a * cos u ^ b * D m u ^ c)). intros. apply G_cont. Qed.
Lemma sc1 u : cos u ^ 2 = 1 - sin u ^ 2.
Proof. assert (E := sin2_cos2 u). unfold Rsqr in E. lra. Qed.
Lemma G_cos m a b c : G m a (S (S b)) c = G m a b c - G m (S (S a)) b c.
Proof.
  apply (int_unique _ _ _ _ _ (G_is m a (S (S b)) c)).
  apply (int_ext (fun u => sin u ^ a * cos u ^ b * D m u ^ c + -1 * (sin u ^ S (S a) * cos u ^ b * D m u ^ c))).
  - intros u. assert (E := sc1 u). cbn [pow] in *. replace (cos u * (cos u * cos u ^ b)) with ((cos u * (cos u * 1)) * cos u ^ b) by ring. rewrite E. ring.
  - replace (G m a b c - G m (S (S a)) b c) with (G m a b c + -1 * G m (S (S a)) b c) by ring. apply int_add; [apply G_is|apply int_scal, G_is].
Qed.
Lemma G_D m a b c : 0 <= m <= 1 -> G m a b (S (S c)) = G m a b c - m * G m (S (S a)) b c.
Proof.
  intros Hm. apply (int_unique _ _ _ _ _ (G_is m a b (S (S c)))).
  apply (int_ext (fun u => sin u ^ a * cos u ^ b * D m u ^ c + - m * (sin u ^ S (S a) * cos u ^ b * D m u ^ c))).
  - intros u. assert (E := D_sq m u Hm). cbn [pow] in *. replace (D m u * (D m u * D m u ^ c)) with ((D m u * D m u) * D m u ^ c) by ring. rewrite E. ring.
  - replace (G m a b c - m * G m (S (S a)) b c) with (G m a b c + - m * G m (S (S a)) b c) by ring. apply int_add; [apply G_is|apply int_scal, G_is].
Qed.
Lemma G_J m i : G m (2 * i) 2 1 = J m i.
Proof. apply (int_unique _ _ _ _ _ (G_is m (2 * i) 2 1)). apply (int_ext (fun u => cos u ^ 2 * sin u ^ (2 * i) * D m u)); [|apply J_is]. intros u. cbn [pow]. ring. Qed.
Lemma D_even m u : D m (- u) = D m u.
Proof. unfold D. rewrite sin_neg. do 3 f_equal. ring. Qed.
Lemma G_odd m a b c : Nat.Odd a -> G m a b c = 0.
Proof.
  intros [k ->]. set (a := (2 * k + 1)%nat).
  assert (I1 := G_is m a b c).
  assert (I0 : is_RInt (fun u => sin u ^ a * cos u ^ b * D m u ^ c) (- h) (- - h) (G m a b c)) by (replace (- - h) with h by ring; exact I1).
  assert (I2 := is_RInt_swap (V := R_NormedModule) _ _ _ _ (is_RInt_comp_opp (V := R_NormedModule) _ _ _ _ I0)).
  assert (I3 : is_RInt (fun u => sin u ^ a * cos u ^ b * D m u ^ c) (- h) h (- G m a b c)).
  { refine (int_ext _ _ _ _ _ _ I2). intros u. cbv beta. rewrite sin_neg, cos_neg, D_even.
    assert (E : (- sin u) ^ a = - sin u ^ a).
    { unfold a. replace (- sin u) with (-1 * sin u) by ring. rewrite Rpow_mult_distr. replace (2 * k + 1)%nat with (S (2 * k)) by lia. rewrite pow_1_odd. ring. }
    rewrite E. change (- (- sin u ^ a * cos u ^ b * D m u ^ c) = sin u ^ a * cos u ^ b * D m u ^ c). ring. }
  assert (E := int_unique _ _ _ _ _ I1 I3). lra.
Qed.

(* the integrand after the two inner integrations *)
Definition Xf (r Rad : R) (a b c : nat) (x : R) : R := x ^ a * sqrt (r ^ 2 - x ^ 2) ^ b * sqrt (Rad ^ 2 - x ^ 2) ^ c.
Definition X (r Rad : R) (a b c : nat) : R := RInt (Xf r Rad a b c) (- r) r.
Lemma sq_cont (r x : R) : continuous (fun x => sqrt (r ^ 2 - x ^ 2)) x.
Proof.
  apply (continuous_comp (fun x => r ^ 2 - x ^ 2) sqrt x); [|apply continuous_sqrt]. apply cont_ex. auto_derive. easy.
Qed.
Lemma Xf_cont r Rad a b c (x : R) : continuous (Xf r Rad a b c) x.
Proof.
  unfold Xf. apply (prod_cont (fun x => x ^ a * sqrt (r ^ 2 - x ^ 2) ^ b)); [apply (prod_cont (fun x => x ^ a))|].
  - apply (pow_cont (fun x => x)). apply continuous_id.
  - apply (pow_cont (fun x => sqrt (r ^ 2 - x ^ 2))), sq_cont.
  - apply (pow_cont (fun x => sqrt (Rad ^ 2 - x ^ 2))), sq_cont.
Qed.
Lemma X_is r Rad a b c : is_RInt (Xf r Rad a b c) (- r) r (X r Rad a b c).
Proof. apply (is_int (Xf r Rad a b c)). intros. apply Xf_cont. Qed.
Lemma X_G r Rad a b c : 0 < r <= Rad -> X r Rad a b c = r ^ (a + b + 1) * Rad ^ c * G ((r / Rad) ^ 2) a (S b) c.
Proof.
  intros H. assert (Hh := h_pos).
  assert (I := is_RInt_comp (V := R_CompleteNormedModule) (Xf r Rad a b c) (fun u => r * sin u) (fun u => r * cos u) (- h) h).
  cbv beta in I. rewrite sin_h, sin_mh in I. replace (r * -1) with (- r) in I by ring. replace (r * 1) with r in I by ring.
  assert (I1 : is_RInt (fun u => r ^ (a + b + 1) * Rad ^ c * (sin u ^ a * cos u ^ S b * D ((r / Rad) ^ 2) u ^ c)) (- h) h (X r Rad a b c)).
  { refine (is_RInt_ext _ _ _ _ _ _ (I _ _)).
    - rewrite Rmin_left, Rmax_right by lra. intros u Hu. match goal with |- @eq _ ?x ?y => change (@eq R x y) end.
      assert (Hc : 0 < cos u) by (apply cos_gt_0; unfold h in *; lra).
      assert (Ey : sqrt (r ^ 2 - (r * sin u) ^ 2) = r * cos u).
      { replace (r ^ 2 - (r * sin u) ^ 2) with (r ^ 2 * (1 - sin u ^ 2)) by ring. rewrite <- sc1.
        replace (r ^ 2 * cos u ^ 2) with ((r * cos u) ^ 2) by ring. rewrite sqrt_pow2; [reflexivity|]. apply Rmult_le_pos; lra. }
      assert (Ez : sqrt (Rad ^ 2 - (r * sin u) ^ 2) = Rad * D ((r / Rad) ^ 2) u).
      { unfold D. replace (Rad ^ 2 - (r * sin u) ^ 2) with (Rad ^ 2 * (1 - (r / Rad) ^ 2 * sin u ^ 2)) by (field; lra).
        assert (P : 0 <= 1 - (r / Rad) ^ 2 * sin u ^ 2).
        { apply D_arg. split; [apply pow2_ge_0|]. assert (r / Rad <= 1) by (apply (Rmult_le_reg_r Rad); [lra|]; replace (r / Rad * Rad) with r by (field; lra); lra).
          assert (0 < r / Rad) by (apply Rdiv_lt_0_compat; lra). nra. }
        rewrite sqrt_mult by (try apply pow2_ge_0; assumption). rewrite sqrt_pow2 by lra. reflexivity. }
      unfold Xf. cbv beta. rewrite Ey, Ez. unfold scal; cbn [ModuleSpace.mixin]. change (r * cos u * ((r * sin u) ^ a * (r * cos u) ^ b * (Rad * D ((r / Rad) ^ 2) u) ^ c) = r ^ (a + b + 1) * Rad ^ c * (sin u ^ a * cos u ^ S b * D ((r / Rad) ^ 2) u ^ c)).
      rewrite !Rpow_mult_distr, !pow_add, pow_1. cbn [pow]. ring.
    - intros u Hu. apply Xf_cont.
    - intros u Hu. split; [auto_derive; [easy|ring]|]. apply (scal_cont r cos), cont_cos. }
  apply (int_unique _ _ _ _ _ I1). apply (int_scal (r ^ (a + b + 1) * Rad ^ c)). apply G_is.
Qed.

Lemma regular_core r Rad : regular (crossed_core r Rad).
Proof. apply (regular_int3 _ _ _ _ _ _ (fun f => f)); intros; [now rewrite H|ring|ring|reflexivity]. Qed.
Definition mu_core (r Rad : R) (a b c : Z) : R :=
  even2 b / IZR (b + 1) * (even2 c / zfact (c + 1)) * X r Rad (Z.to_nat a) (Z.to_nat (b + 1)) (Z.to_nat (c + 1)).
Lemma zval_dbl s c : (0 <= c)%Z -> zval (2 * s) c = even2 c / zfact (c + 1) * pw s (c + 1).
Proof.
  intros Hc. unfold zval, even2. destruct (Z.even c); [|unfold Rdiv; ring]. rewrite pw_mult by lia. rewrite (pw_add_nonneg 2 c 1), pw_1 by lia.
  field. split; [apply zfact_neq0|]. rewrite pw_nonneg by lia. apply pow_nonzero. lra.
Qed.
Lemma core_mono r Rad a b c : (0 <= a)%Z -> (0 <= b)%Z -> (0 <= c)%Z -> crossed_core r Rad (mono a b c) (RtoC (mu_core r Rad a b c)).
Proof.
  intros Ha Hb Hc. unfold crossed_core, mono.
  exists (fun x y => (RtoC (pw x a * (even2 c / zfact (c + 1) * pw (sqrt (Rad ^ 2 - x ^ 2)) (c + 1))) * RtoC (pw y b))%C),
    (fun x => (RtoC (even2 b / IZR (b + 1) * (even2 c / zfact (c + 1))) * RtoC (Xf r Rad (Z.to_nat a) (Z.to_nat (b + 1)) (Z.to_nat (c + 1)) x))%C).
  split; [|split].
  - intros x y. set (s := sqrt (Rad ^ 2 - x ^ 2)). assert (I := zint (2 * s) c Hc). rewrite zval_dbl in I by assumption.
    replace (- (2 * s) / 2) with (- s) in I by field. replace (2 * s / 2) with s in I by field.
    eapply is_CInt_val; [|apply is_CInt_scal; exact I]. rewrite <- !RtoC_mult. f_equal. ring.
  - intros x. eapply is_CInt_val; [|apply is_CInt_scal; apply sym_int; assumption]. rewrite <- !RtoC_mult. f_equal. unfold Xf.
    rewrite !pw_nonneg by lia. field. split; [apply zfact_neq0|apply IZR_pos_neq0; lia].
  - unfold mu_core. rewrite (RtoC_mult (even2 b / IZR (b + 1) * (even2 c / zfact (c + 1)))). apply (is_CInt_scal (RtoC (even2 b / IZR (b + 1) * (even2 c / zfact (c + 1)))) (fun x => RtoC (Xf r Rad (Z.to_nat a) (Z.to_nat (b + 1)) (Z.to_nat (c + 1)) x))). split; cbn [Re Im RtoC fst snd].
    + apply X_is.
    + assert (Q := is_RInt_const (V := R_NormedModule) (- r) r 0).
      replace (scal (r - - r) (0 : R_NormedModule)) with (0 : R) in Q by (change (0 = (r - - r) * 0); ring). exact Q.
Qed.
