(* The integrals behind qlmACH.cylhole and cylhole2: cos^2 u sin^2j u sqrt(1 - m sin^2 u) *)
From Coq Require Import Reals Lra Lia Arith.
From Coquelicot Require Import Coquelicot.
From Verif Require Import EllSpec Legendre Gauss.
Open Scope R_scope.

Definition D (m u : R) : R := sqrt (1 - m * sin u ^ 2).
Definition h := PI / 2.
Definition J (m : R) (i : nat) : R := RInt (fun u => cos u ^ 2 * sin u ^ (2 * i) * D m u) (- h) h.
Definition A (m : R) (i : nat) : R := RInt (fun u => sin u ^ (2 * i) / D m u) (- h) h.
Lemma h_pos : 0 < h. Proof. unfold h. assert (H := PI_RGT_0). lra. Qed.
Lemma sin_h : sin h = 1. Proof. apply sin_PI2. Qed.
Lemma cos_h : cos h = 0. Proof. apply cos_PI2. Qed.
Lemma sin_mh : sin (- h) = -1. Proof. rewrite sin_neg, sin_h. ring. Qed.
Lemma cos_mh : cos (- h) = 0. Proof. rewrite cos_neg. apply cos_h. Qed.
Lemma sin2_le u : 0 <= sin u ^ 2 <= 1.
Proof. assert (E := sin2_cos2 u). unfold Rsqr in E. assert (0 <= cos u * cos u) by nra. split; nra. Qed.
Lemma D_arg m u : 0 <= m <= 1 -> 0 <= 1 - m * sin u ^ 2.
Proof. intros H. assert (S := sin2_le u). nra. Qed.
Lemma D_arg_pos m u : 0 <= m < 1 -> 0 < 1 - m * sin u ^ 2.
Proof. intros H. assert (S := sin2_le u). nra. Qed.
Lemma D_pos m u : 0 <= m < 1 -> 0 < D m u.
Proof. intros H. apply sqrt_lt_R0. now apply D_arg_pos. Qed.
Lemma D_sq m u : 0 <= m <= 1 -> D m u * D m u = 1 - m * sin u ^ 2.
Proof. intros H. apply sqrt_sqrt. now apply D_arg. Qed.
Lemma cont_sin (u : R) : continuous sin u. Proof. apply (ex_derive_continuous sin). auto_derive. easy. Qed.
Lemma cont_ex (f : R -> R) (u : R) : ex_derive f u -> continuous f u. Proof. intros H. exact (ex_derive_continuous (K := R_AbsRing) (V := R_NormedModule) f u H). Qed.
Lemma D_cont m (u : R) : continuous (D m) u.
Proof.
  unfold D. apply (continuous_comp (fun u => 1 - m * sin u ^ 2) sqrt); [|apply continuous_sqrt]. apply cont_ex. auto_derive. easy.
Qed.
Lemma prod_cont (f g : R -> R) (u : R) : continuous f u -> continuous g u -> continuous (fun x => f x * g x) u.
Proof. intros. now apply (continuous_mult (K := R_AbsRing) f g). Qed.
Lemma add_cont (f g : R -> R) (u : R) : continuous f u -> continuous g u -> continuous (fun x => f x + g x) u.
Proof. intros. now apply (continuous_plus (V := R_NormedModule) f g). Qed.
Lemma scal_cont (c : R) (f : R -> R) (u : R) : continuous f u -> continuous (fun x => c * f x) u.
Proof. intros. apply (prod_cont (fun _ => c) f); [apply continuous_const|easy]. Qed.
Lemma J_cont m i (u : R) : continuous (fun u => cos u ^ 2 * sin u ^ (2 * i) * D m u) u.
Proof. apply prod_cont; [|apply D_cont]. apply cont_ex. auto_derive. easy. Qed.
Lemma ex_int (f : R -> R) a b : (forall u, continuous f u) -> ex_RInt f a b.
Proof. intros H. apply (ex_RInt_continuous (V := R_CompleteNormedModule)). intros; apply H. Qed.
Lemma is_int (f : R -> R) a b : (forall u, continuous f u) -> is_RInt f a b (RInt f a b).
Proof. intros H. apply (RInt_correct (V := R_CompleteNormedModule)). now apply ex_int. Qed.
Lemma J_is m i : is_RInt (fun u => cos u ^ 2 * sin u ^ (2 * i) * D m u) (- h) h (J m i).
Proof. apply is_int. apply J_cont. Qed.
Lemma A_cont m i (u : R) : 0 <= m < 1 -> continuous (fun u => sin u ^ (2 * i) / D m u) u.
Proof.
  intros H. apply cont_ex. unfold D. assert (Q := D_arg_pos m u H). assert (Q2 := D_pos m u H). unfold D in Q2. auto_derive.
  unfold Rminus in *. cbn [pow] in Q, Q2. repeat split; try exact I; first [exact Q|apply Rgt_not_eq; exact Q2].
Qed.
Lemma A_is m i : 0 <= m < 1 -> is_RInt (fun u => sin u ^ (2 * i) / D m u) (- h) h (A m i).
Proof. intros H. apply is_int. intros. now apply A_cont. Qed.
Lemma int_unique (f : R -> R) a b v w : is_RInt f a b v -> is_RInt f a b w -> v = w.
Proof. intros H1 H2. rewrite <- (is_RInt_unique (V := R_CompleteNormedModule) f a b v H1). now apply (is_RInt_unique (V := R_CompleteNormedModule)). Qed.
Lemma int_add (f g : R -> R) a b v w : is_RInt f a b v -> is_RInt g a b w -> is_RInt (fun u => f u + g u) a b (v + w).
Proof. apply (is_RInt_plus (V := R_NormedModule)). Qed.
Lemma int_scal (c : R) (f : R -> R) a b v : is_RInt f a b v -> is_RInt (fun u => c * f u) a b (c * v).
Proof. apply (is_RInt_scal (V := R_NormedModule)). Qed.
Lemma int_ext (f g : R -> R) a b v : (forall u, f u = g u) -> is_RInt f a b v -> is_RInt g a b v.
Proof. intros H. apply is_RInt_ext. intros; apply H. Qed.
Lemma J_A m i : 0 <= m < 1 -> J m i = A m i - (1 + m) * A m (S i) + m * A m (S (S i)).
Proof.
  intros H. apply (int_unique (fun u => cos u ^ 2 * sin u ^ (2 * i) * D m u) (- h) h); [apply J_is|].
  replace (A m i - (1 + m) * A m (S i) + m * A m (S (S i))) with (A m i + (- (1 + m) * A m (S i) + m * A m (S (S i)))) by ring.
  eapply int_ext; [|apply int_add; [apply A_is; exact H|apply int_add; apply int_scal; apply A_is; exact H]].
  intros u. cbv beta. assert (P := D_pos m u H). assert (Q := D_sq m u ltac:(lra)).
  replace (2 * S (S i))%nat with (2 * i + 4)%nat by lia. replace (2 * S i)%nat with (2 * i + 2)%nat by lia. rewrite !pow_add.
  assert (C := sin2_cos2 u). unfold Rsqr in C. set (s := sin u) in *. set (c := cos u) in *. set (d := D m u) in *. generalize (s ^ (2 * i)). intros P0.
  replace (c ^ 2) with (1 - s ^ 2) by nra. apply Rmult_eq_reg_r with d; [|lra].
  replace ((1 - s ^ 2) * P0 * d * d) with ((1 - s ^ 2) * P0 * (d * d)) by ring. rewrite Q. field. lra.
Qed.
Lemma D_der m (u : R) : 0 <= m < 1 -> is_derive (D m) u (- (m * sin u * cos u / D m u)).
Proof.
  intros H. assert (P := D_pos m u H). assert (P1 := D_arg_pos m u H).
  eapply is_derive_eq; [apply (is_derive_comp sqrt (fun u => 1 - m * sin u ^ 2)); [apply is_derive_Reals, derivable_pt_lim_sqrt; exact P1|auto_derive; [easy|reflexivity]]|].
  unfold D in *. unfold scal; cbn [AbsRing.sort]; cbn; unfold mult; cbn. replace (1 + - (m * (sin u * (sin u * 1)))) with (1 - m * sin u ^ 2) by ring.
  field. apply Rgt_not_eq. exact P.
Qed.
Lemma A_rec m k : 0 <= m < 1 -> (2 * INR k + 1) * A m k - (2 * INR k + 2) * (1 + m) * A m (S k) + (2 * INR k + 3) * m * A m (S (S k)) = 0.
Proof.
  intros H. set (g := fun u => (2 * INR k + 1) * (sin u ^ (2 * k) / D m u) + (- (2 * INR k + 2) * (1 + m) * (sin u ^ (2 * S k) / D m u) + (2 * INR k + 3) * m * (sin u ^ (2 * S (S k)) / D m u))).
  apply (int_unique g (- h) h).
  - match goal with |- is_RInt _ _ _ ?v => replace v with ((2 * INR k + 1) * A m k + (- (2 * INR k + 2) * (1 + m) * A m (S k) + (2 * INR k + 3) * m * A m (S (S k)))) by ring end.
    unfold g. apply int_add; [|apply int_add]; apply int_scal; now apply A_is.
  - assert (Dg : forall u : R, is_derive (fun u => sin u ^ (2 * k + 1) * cos u * D m u) u (g u)).
    { intros u. assert (P := D_pos m u H). assert (Q := D_sq m u ltac:(lra)). 
      eapply is_derive_eq; [apply der_mul; [|now apply D_der]; apply (der_mul (fun u => sin u ^ (2 * k + 1)) cos); [|apply is_derive_cos]|].
      { apply is_derive_pow. apply is_derive_sin. }
      unfold g. replace (2 * S (S k))%nat with (2 * k + 4)%nat by lia. replace (2 * S k)%nat with (2 * k + 2)%nat by lia.
      replace (Init.Nat.pred (2 * k + 1)) with (2 * k)%nat by lia. rewrite plus_INR, mult_INR. change (INR 2) with 2. change (INR 1) with 1. rewrite !pow_add.
      assert (C := sin2_cos2 u). unfold Rsqr in C. set (s := sin u) in *. set (c := cos u) in *. set (d := D m u) in *. generalize (s ^ (2 * k)). intros P0. generalize (INR k). intros K.
      apply Rmult_eq_reg_r with d; [|lra].
      match goal with |- ?a * d = ?b * d => replace (a * d) with (((2 * K + 1) * P0 * (c * c) - P0 * s * s) * (d * d) - m * P0 * s * s * (c * c)) by (field; lra);
        replace (b * d) with ((2 * K + 1) * P0 - (2 * K + 2) * (1 + m) * P0 * s ^ 2 + (2 * K + 3) * m * P0 * s ^ 4) by (field; lra) end.
      rewrite Q. replace (c * c) with (1 - s * s) by lra. ring. }
    replace 0 with (minus (sin h ^ (2 * k + 1) * cos h * D m h) (sin (- h) ^ (2 * k + 1) * cos (- h) * D m (- h))).
    + apply (is_RInt_derive (V := R_CompleteNormedModule) (fun u => sin u ^ (2 * k + 1) * cos u * D m u) g); [intros; apply Dg|].
      intros u _. unfold g. apply add_cont; [|apply add_cont]; apply scal_cont; now apply A_cont.
    + rewrite cos_h, cos_mh. unfold minus, plus, opp; cbn. ring.
Qed.

(* ---------- in terms of the elliptic integrals ---------- *)
Lemma half_even (f : R -> R) v : (forall u, continuous f u) -> (forall u, f (- u) = f u) -> is_RInt f 0 h v -> is_RInt f (- h) h (2 * v).
Proof.
  intros C E I. assert (I2 : is_RInt f (- h) 0 v).
  { assert (K := is_RInt_comp_opp (V := R_NormedModule) f (- h) 0 (opp v)). rewrite Ropp_involutive, Ropp_0 in K. 
    assert (K2 := K (is_RInt_swap (V := R_NormedModule) f h 0 v I)).
    apply (is_RInt_opp (V := R_NormedModule)) in K2. rewrite opp_opp in K2. eapply int_ext; [|exact K2].
    intros u. cbv beta. rewrite opp_opp. apply E. }
  assert (I3 := is_RInt_Chasles (V := R_NormedModule) f (- h) 0 h v v I2 I).
  replace (2 * v) with (plus v v); [exact I3|]. unfold plus; cbn. ring.
Qed.
Lemma A_0 m K : 0 <= m < 1 -> is_ellipk m K -> A m 0 = 2 * K.
Proof.
  intros H I. apply (int_unique (fun u => sin u ^ (2 * 0) / D m u) (- h) h); [now apply A_is|].
  apply half_even; [intros; now apply A_cont| |].
  - intros u. cbn [Nat.mul pow]. unfold D. rewrite sin_neg. f_equal. f_equal. f_equal. f_equal. ring.
  - eapply int_ext; [|exact I]. intros u. cbn [Nat.mul pow]. unfold D. cbv beta. unfold Rdiv. now rewrite Rmult_1_l.
Qed.
Lemma E_A m E : 0 <= m < 1 -> is_ellipe m E -> 2 * E = A m 0 - m * A m 1.
Proof.
  intros H I. apply (int_unique (D m) (- h) h).
  - apply half_even; [intros; apply D_cont| |exact I]. intros u. unfold D. rewrite sin_neg. f_equal. ring.
  - replace (A m 0 - m * A m 1) with (A m 0 + - m * A m 1) by ring.
    eapply int_ext; [|apply int_add; [|apply int_scal]; apply A_is; exact H].
    intros u. cbv beta. assert (P := D_pos m u H). assert (Q := D_sq m u ltac:(lra)). apply Rmult_eq_reg_r with (D m u); [|lra]. rewrite Q. cbn [Nat.mul Nat.add pow]. field. lra.
Qed.
(* the solution of the recurrence that starts with the values k, e *)
Definition jA (m e k : R) (i : nat) : R :=
  let a1 := (k - e) / m in let a2 := (2 * (1 + m) * a1 - k) / (3 * m) in let a3 := (4 * (1 + m) * a2 - 3 * a1) / (5 * m) in
  let a4 := (6 * (1 + m) * a3 - 5 * a2) / (7 * m) in
  match i with 0%nat => k - (1 + m) * a1 + m * a2 | 1%nat => a1 - (1 + m) * a2 + m * a3 | _ => a2 - (1 + m) * a3 + m * a4 end.
Lemma J_ell m E K i : 0 < m < 1 -> is_ellipe m E -> is_ellipk m K -> (i <= 2)%nat -> J m i = 2 * jA m E K i.
Proof.
  intros H IE IK Hi. assert (H' : 0 <= m < 1) by lra. rewrite (J_A m i H').
  assert (R0 := A_rec m 0 H'). assert (R1 := A_rec m 1 H'). assert (R2 := A_rec m 2 H'). assert (E0 := E_A m E H' IE). rewrite (A_0 m K H' IK) in *.
  cbn [INR] in *.
  assert (E1 : A m 1 = 2 * ((K - E) / m)) by (apply Rmult_eq_reg_l with m; [field_simplify; lra|lra]).
  assert (E2 : A m 2 = 2 * ((2 * (1 + m) * ((K - E) / m) - K) / (3 * m))).
  { apply Rmult_eq_reg_l with (3 * m); [|lra]. rewrite E1 in R0. replace (3 * m * A m 2) with (2 * (1 + m) * (2 * ((K - E) / m)) - 2 * K) by lra. field. lra. }
  assert (E3 : A m 3 = 2 * ((4 * (1 + m) * ((2 * (1 + m) * ((K - E) / m) - K) / (3 * m)) - 3 * ((K - E) / m)) / (5 * m))).
  { apply Rmult_eq_reg_l with (5 * m); [|lra]. replace (5 * m * A m 3) with (4 * (1 + m) * A m 2 - 3 * A m 1) by lra. rewrite E1, E2. field. lra. }
  assert (E4 : 7 * m * A m 4 = 6 * (1 + m) * A m 3 - 5 * A m 2) by lra.
  assert (E4' : A m 4 = (6 * (1 + m) * A m 3 - 5 * A m 2) / (7 * m)) by (rewrite <- E4; field; lra).
  destruct i as [|[|[|i]]]; [| | |lia]; rewrite ?(A_0 m K H' IK), ?E4', ?E3, ?E2, ?E1; unfold jA; field; lra.
Qed.
Lemma J_1 i : (i <= 2)%nat -> J 1 i = 2 * jA 1 1 0 i.
Proof.
  intros Hi. 
  assert (G : J 1 i = 2 / (2 * INR i + 1) - 2 / (2 * INR i + 3)).
  { apply (int_unique (fun u => cos u ^ 2 * sin u ^ (2 * i) * D 1 u) (- h) h); [apply J_is|].
    set (F := fun u => sin u ^ (2 * i + 1) / (2 * INR i + 1) - sin u ^ (2 * i + 3) / (2 * INR i + 3)).
    assert (Hn := pos_INR i).
    replace (2 / (2 * INR i + 1) - 2 / (2 * INR i + 3)) with (minus (F h) (F (- h))).
    2:{ unfold F, minus, plus, opp; cbn [AbelianGroup.sort]; cbn -[pow Nat.mul]. rewrite sin_h, sin_mh, !pow1.
        replace (2 * i + 3)%nat with (S (S (2 * i + 1)))%nat by lia. replace (2 * i + 1)%nat with (S (2 * i)) by lia. cbn [pow]. rewrite !pow_1_even. field. lra. }
    apply (is_RInt_ext (fun u => cos u * (sin u ^ (2 * i) * (cos u * cos u)))).
    { intros u Hu. rewrite Rmin_left, Rmax_right in Hu by (assert (HH := h_pos); lra).
      assert (Hc : 0 < cos u) by (apply cos_gt_0; unfold h in Hu; lra). unfold D. replace (1 - 1 * sin u ^ 2) with (cos u * cos u).
      - rewrite sqrt_square by lra. match goal with |- @eq _ ?x ?y => change (@eq R x y) end. ring.
      - assert (C := sin2_cos2 u). unfold Rsqr in C. nra. }
    apply (is_RInt_derive (V := R_CompleteNormedModule) F).
    - intros u _. assert (D1 := is_derive_pow sin (2 * i + 1) u (cos u) (is_derive_sin u)). assert (D3 := is_derive_pow sin (2 * i + 3) u (cos u) (is_derive_sin u)).
      apply (der_scal (/ (2 * INR i + 1))) in D1. apply (der_scal (/ (2 * INR i + 3))) in D3. assert (Dd := der_sub _ _ _ _ _ D1 D3).
      eapply is_derive_eq; [eapply is_derive_ext; [|exact Dd]|].
      + intros t. unfold F. match goal with |- @eq _ ?x ?y => change (@eq R x y) end. field. lra.
      + rewrite !plus_INR, !mult_INR. change (INR 2) with 2. replace (INR 3) with 3 by (cbn [INR]; ring). change (INR 1) with 1.
        replace (Init.Nat.pred (2 * i + 3)) with (2 * i + 2)%nat by lia. replace (Init.Nat.pred (2 * i + 1)) with (2 * i)%nat by lia. rewrite pow_add.
        assert (C := sin2_cos2 u). unfold Rsqr in C. replace (cos u * cos u) with (1 - sin u * sin u) by lra. field. lra.
    - intros u _. apply cont_ex. auto_derive. easy. }
  rewrite G. destruct i as [|[|[|i]]]; [| | |lia]; unfold jA; cbn [INR]; field.
Qed.
