(* The closed forms of qlmACH.py are volume integrals: tetrahedron, pyramid, trapezoid, cones. *)
From Verif Require Export AchProofs.
From Verif Require Import ClebschGordanProofs TranslationsProofs.
From Verif Require Import Cplx.
Open Scope C_scope.

Lemma ach_tetrahedron_body LMax rho x y z q : (0 <= LMax)%Z -> ach_tetrahedron LMax rho x y z = Ok q ->
  deg q = LMax /\ density_moments every q rho (corner_tetrahedron x y z).
Proof.
  intros HL E. unfold ach_tetrahedron in E. destruct (_ || _)%bool eqn:G; [discriminate|]. apply Ok_inj in E. subst q.
  apply Bool.orb_false_elim in G. destruct G as [G G3]. apply Bool.orb_false_elim in G. destruct G as [G1 G2].
  apply rle_false in G1. apply rle_false in G2. apply rle_false in G3.
  assert (Hx : x <> 0%R) by lra. assert (Hy : y <> 0%R) by lra.
  split; [apply deg_ach|]. assert (HV : (0 < x * y * z / 6)%R) by (assert (0 < x * y * z)%R by (repeat apply Rmult_lt_0_compat; lra); lra).
  apply (ach_body _ (mono_int (mu_corner x y z)) rho (x * y * z / 6)); [assumption|reflexivity|apply regular_corner|lra| | |].
  - rewrite <- corner_volume. apply mono_000; [apply regular_corner|intros; now apply corner_mono].
  - intros l m Hm _ _. apply mono_solid; [apply regular_corner|intros; now apply corner_mono|assumption].
  - intros l m Hm Hl _. rewrite (Rabs_pos_eq (x * y * z / 6)) by lra. replace (x * y * z / 6 / (x * y * z / 6))%R with 1%R by (field; repeat split; lra). rewrite Rmult_1_r. revert l m Hm Hl.
    apply lm_cases.
    all: unfold ach_tetrahedron_tab; ach_open; unfold mu_corner; ach_calc.
Qed.
Lemma ach_pyramid_body LMax rho h x y q : (0 <= LMax)%Z -> ach_pyramid LMax rho h x y = Ok q ->
  deg q = LMax /\ density_moments every q rho (rect_pyramid (x / 2) (y / 2) h).
Proof.
  intros HL E. unfold ach_pyramid in E. destruct (_ || _)%bool eqn:G; [discriminate|]. apply Ok_inj in E. subst q.
  apply Bool.orb_false_elim in G. destruct G as [G G3]. apply Bool.orb_false_elim in G. destruct G as [G1 G2].
  apply rle_false in G1. apply rle_false in G2. apply rle_false in G3.
  assert (Hh : h <> 0%R) by lra.
  split; [apply deg_ach|]. assert (HV : (0 < 4 * (x / 2) * (y / 2) * h / 3)%R) by (assert (0 < x * y * h)%R by (repeat apply Rmult_lt_0_compat; lra); lra).
  apply (ach_body _ (mono_int (mu_pyr (x / 2) (y / 2) h)) rho (4 * (x / 2) * (y / 2) * h / 3)); [assumption|reflexivity|apply regular_pyramid|lra| | |].
  - rewrite <- pyr_volume. apply mono_000; [apply regular_pyramid|intros; now apply pyr_mono].
  - intros l m Hm _ _. apply mono_solid; [apply regular_pyramid|intros; now apply pyr_mono|assumption].
  - intros l m Hm Hl _. set (V := (4 * (x / 2) * (y / 2) * h / 3)%R) in *. rewrite (Rabs_pos_eq V) by lra. replace (V / V)%R with 1%R by (field; lra). rewrite Rmult_1_r. clear V HV. revert l m Hm Hl.
    apply lm_cases.
    all: unfold ach_pyramid_tab; ach_open; unfold mu_pyr, even2; ach_calc.
Qed.

(* ---- polynomials ------------------------------------------------------------------ *)
Fixpoint peval (p : list R) (x : R) : R := match p with nil => 0%R | a :: p => (a + x * peval p x)%R end.
Fixpoint padd (p q : list R) : list R := match p, q with nil, q => q | p, nil => p | a :: p, b :: q => (a + b)%R :: padd p q end.
Definition pscal (c : R) (p : list R) : list R := map (Rmult c) p.
Fixpoint pmul (p q : list R) : list R := match p with nil => nil | a :: p => padd (pscal a q) (0%R :: pmul p q) end.
Fixpoint ppow (p : list R) (n : nat) : list R := match n with O => 1%R :: nil | S n => pmul p (ppow p n) end.
Lemma padd_eval p : forall q x, peval (padd p q) x = (peval p x + peval q x)%R.
Proof. induction p as [|a p IH]; intros [|b q] x; cbn [padd peval]; [ring|ring|ring|]. rewrite IH. ring. Qed.
Lemma pscal_eval c p x : peval (pscal c p) x = (c * peval p x)%R.
Proof. unfold pscal. induction p as [|a p IH]; cbn [map peval]; [ring|]. rewrite IH. ring. Qed.
Lemma pmul_eval p q x : peval (pmul p q) x = (peval p x * peval q x)%R.
Proof. induction p as [|a p IH]; cbn [pmul peval]; [ring|]. rewrite padd_eval, pscal_eval. cbn [peval]. rewrite IH. ring. Qed.
Lemma ppow_eval p n x : peval (ppow p n) x = (peval p x ^ n)%R.
Proof. induction n as [|n IH]; cbn [ppow pow]; [cbn; ring|]. rewrite pmul_eval, IH. ring. Qed.
(* int_a^b x^k p(x) dx *)
Fixpoint pint (k : Z) (p : list R) (a b : R) : R :=
  match p with nil => 0%R | c :: p => (c * ((pw b (k + 1) - pw a (k + 1)) / IZR (k + 1)) + pint (k + 1) p a b)%R end.
Lemma pint_ok p : forall k a b, (0 <= k)%Z -> is_CInt (fun x => RtoC (pw x k * peval p x)) a b (RtoC (pint k p a b)).
Proof.
  induction p as [|c p IH]; intros k a b Hk; cbn [peval pint].
  - apply (is_CInt_ext (fun _ => 0)); [intros; f_equal; ring|apply is_CInt_0].
  - apply (is_CInt_ext (fun x => RtoC c * RtoC (pw x k) + RtoC (pw x (k + 1) * peval p x))).
    + intros x. rewrite <- RtoC_mult, <- RtoC_plus. f_equal. rewrite (pw_add_nonneg x k 1), pw_1 by lia. ring.
    + rewrite RtoC_plus. apply is_CInt_plus; [|apply IH; lia]. rewrite RtoC_mult. apply is_CInt_scal. now apply rint.
Qed.
Lemma aff_int c n al be a b : (0 <= c)%Z -> (0 <= n)%Z ->
  is_CInt (fun x => RtoC (pw x c * pw (al + be * x) n)) a b (RtoC (pint c (ppow (al :: be :: nil) (Z.to_nat n)) a b)).
Proof.
  intros Hc Hn. eapply is_CInt_ext; [|apply pint_ok; assumption]. intros x. cbv beta. rewrite ppow_eval, (pw_nonneg _ n) by assumption.
  f_equal. f_equal. f_equal. cbn [peval]. ring.
Qed.

(* ---- trapezoid ---------------------------------------------------------------------- *)
Definition mu_trap (t w1 w2 h : R) (a b c : Z) : R :=
  (zval t c * (even2 b / (IZR (b + 1) * pw 2 (b + 1))) * pint a (ppow (w1 :: ((w2 - w1) / h)%R :: nil) (Z.to_nat (b + 1))) 0 h)%R.
Lemma regular_trap t w1 w2 h : regular (trapezoidal_plate t w1 w2 h). Proof. apply regular_plain. Qed.
Lemma trap_mono t w1 w2 h a b c : (0 <= a)%Z -> (0 <= b)%Z -> (0 <= c)%Z -> trapezoidal_plate t w1 w2 h (mono a b c) (RtoC (mu_trap t w1 w2 h a b c)).
Proof.
  intros Ha Hb Hc. unfold trapezoidal_plate, mono.
  exists (fun x y => RtoC (zval t c * pw x a) * RtoC (pw y b)),
    (fun x => RtoC (zval t c * (even2 b / (IZR (b + 1) * pw 2 (b + 1)))) * RtoC (pw x a * pw (w1 + (w2 - w1) / h * x) (b + 1))).
  split; [|split].
  - intros x y. eapply is_CInt_val; [|apply is_CInt_scal; apply zint; assumption]. rewrite <- !RtoC_mult. f_equal. ring.
  - intros x. eapply is_CInt_val; [|apply is_CInt_scal; apply sym_int; assumption]. rewrite <- !RtoC_mult. f_equal.
    replace (w1 + (w2 - w1) * (x / h))%R with (w1 + (w2 - w1) / h * x)%R by (unfold Rdiv; ring). rewrite pw_div by (lia || lra).
    field. split; [apply pw2_neq0|apply IZR_pos_neq0; lia].
  - eapply is_CInt_val; [|apply is_CInt_scal; apply aff_int; lia]. rewrite <- !RtoC_mult. f_equal.
Qed.
