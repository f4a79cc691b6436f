(* Existence of the integrals of qlmNum/bigQlmNum. *)
From Verif Require Export NumProofs.
From Verif Require Import Cplx.
Open Scope R_scope.

Lemma cont_int (f : R -> R) (a b : R) : (forall t, Rmin a b <= t <= Rmax a b -> continuous f t) -> is_RInt f a b (RInt f a b).
Proof. intros H. apply (RInt_correct (V := R_CompleteNormedModule) f). apply (ex_RInt_continuous (V := R_CompleteNormedModule) f). exact H. Qed.
Lemma cont_mult (f g : R -> R) (t : R) : continuous f t -> continuous g t -> continuous (fun t => f t * g t) t.
Proof. intros H1 H2. exact (continuous_mult (K := R_AbsRing) f g t H1 H2). Qed.
Lemma cont_der (f : R -> R) (t : R) : ex_derive f t -> continuous f t.
Proof. intros H. exact (ex_derive_continuous (K := R_AbsRing) (V := R_NormedModule) f t H). Qed.
(* the integral depends continuously on its bounds where the integrand is continuous to the right of c *)
Lemma cont_bounds (w : R -> R) (c : R) (lo hi : R -> R) (t : R) : (forall r, c < r -> continuous w r) -> c < lo t -> c < hi t ->
  continuous lo t -> continuous hi t -> continuous (fun t => RInt w (lo t) (hi t)) t.
Proof.
  intros Hw Hl Hh Cl Ch. apply (continuous_comp_2 lo hi (fun a b => RInt w a b) t Cl Ch).
  apply (continuous_RInt w (lo t) (hi t) (fun a b => RInt w a b)).
  assert (P : 0 < Rmin (lo t - c) (hi t - c)) by (apply Rmin_pos; lra). exists (mkposreal _ P). intros [a b] [Ba Bb]. cbn [fst snd] in *.
  apply cont_int. intros r Hr. apply Hw.
  assert (Ha : c < a). { apply AbsRing_norm_compat2 in Ba || idtac. unfold ball in Ba; cbn in Ba; unfold AbsRing_ball, abs, minus, plus, opp in Ba; cbn in Ba. apply Rabs_def2 in Ba. assert (G := Rmin_l (lo t - c) (hi t - c)). lra. }
  assert (Hb : c < b). { unfold ball in Bb; cbn in Bb; unfold AbsRing_ball, abs, minus, plus, opp in Bb; cbn in Bb. apply Rabs_def2 in Bb. assert (G := Rmin_r (lo t - c) (hi t - c)). lra. }
  assert (c < Rmin a b) by (now apply Rmin_glb_lt). lra.
Qed.
(* separable integrands *)
Lemma sep_int3 (p : R) (lo1 hi1 lo hi : R -> R) (e : R -> C) (W : R -> R -> R) (w V : R -> R) :
  (forall r, is_RInt (W r) (lo r) (hi r) (w r)) -> (forall th, is_RInt w (lo1 th) (hi1 th) (V th)) ->
  (forall th, Rmin (- p) p <= th <= Rmax (- p) p -> continuous V th) ->
  (forall th, continuous (fun t => Re (e t)) th) -> (forall th, continuous (fun t => Im (e t)) th) ->
  is_int3 (- p) p lo1 hi1 (fun _ => lo) (fun _ => hi) (fun th r z => (e th * RtoC (W r z))%C)
    (RInt (fun t => Re (e t) * V t) (- p) p, RInt (fun t => Im (e t) * V t) (- p) p).
Proof.
  intros H1 H2 HV HR HI. exists (fun th r => (e th * RtoC (w r))%C), (fun th => (e th * RtoC (V th))%C). split; [|split].
  - intros th r. apply is_CInt_scal, is_CInt_real, H1.
  - intros th. apply is_CInt_scal, is_CInt_real, H2.
  - apply (is_CInt_ext (fun th => (Re (e th) * V th, Im (e th) * V th))).
    + intros th. destruct (e th). apply C_eq; cbn; ring.
    + split; cbn [Re Im fst snd]; apply cont_int; intros t Ht; apply cont_mult; auto.
Qed.

(* ---- bodies described in cylindrical coordinates ---- *)
Definition cylB (p : R) (lo1 hi1 lo hi : R -> R) : body := fun f I =>
  is_int3 (- p) p lo1 hi1 (fun _ => lo) (fun _ => hi) (fun ph r z => (RtoC r * f (r * cos ph)%R (r * sin ph)%R z)%C) I.
Lemma regular_cylB p lo1 hi1 lo hi : regular (cylB p lo1 hi1 lo hi).
Proof.
  apply (regular_int3 (- p) p lo1 hi1 (fun _ => lo) (fun _ => hi) (fun f ph r z => (RtoC r * f (r * cos ph)%R (r * sin ph)%R z)%C)).
  - intros f g u v w E. cbv beta. now rewrite E.
  - intros c f u v w. cbv beta. ring.
  - intros f g u v w. cbv beta. ring.
  - intros f u v w. cbv beta. now rewrite Cconj_mult, Cconj_RtoC.
Qed.
Lemma ex_pow (f : R -> R) (t : R) n : ex_derive f t -> ex_derive (fun t => f t ^ n) t.
Proof. intros H. exact (ex_derive_pow f n t H). Qed.
Lemma cyl_mono (p : R) (lo1 hi1 lo hi : R -> R) : (forall r : R, ex_derive lo r) -> (forall r : R, ex_derive hi r) ->
  (forall th, Rmin (- p) p <= th <= Rmax (- p) p -> continuous lo1 th) -> (forall th, Rmin (- p) p <= th <= Rmax (- p) p -> continuous hi1 th) ->
  exists mu, forall a b c, (0 <= a)%Z -> (0 <= b)%Z -> (0 <= c)%Z -> cylB p lo1 hi1 lo hi (mono a b c) (RtoC (mu a b c)).
Proof.
  intros Dl Dh Cl Ch.
  set (w := fun (a b c : Z) (r : R) => r ^ Z.to_nat (a + b + 1) * ((hi r ^ S (Z.to_nat c) - lo r ^ S (Z.to_nat c)) / (INR (S (Z.to_nat c)) * zfact c))).
  set (V := fun (a b c : Z) (th : R) => RInt (w a b c) (lo1 th) (hi1 th)).
  exists (fun a b c => RInt (fun t => cos t ^ Z.to_nat a * sin t ^ Z.to_nat b * V a b c t) (- p) p).
  intros a b c Ha Hb Hc.
  assert (Cw : forall r, continuous (w a b c) r).
  { intros r. apply cont_der. unfold w. apply ex_derive_mult; [apply ex_pow, ex_derive_id|].
    apply (ex_derive_ext (fun r => / (INR (S (Z.to_nat c)) * zfact c) * (hi r ^ S (Z.to_nat c) - lo r ^ S (Z.to_nat c)))); [intros t; unfold Rdiv; match goal with |- @eq _ ?x ?y => change (@eq R x y) end; ring|].
    apply ex_derive_mult; [apply @ex_derive_const|]. apply (ex_derive_minus (K := R_AbsRing) (V := R_NormedModule)); apply ex_pow; auto. }
  assert (S3 := sep_int3 p lo1 hi1 lo hi (fun t => RtoC (cos t ^ Z.to_nat a * sin t ^ Z.to_nat b)) (fun r z => r ^ Z.to_nat (a + b + 1) * (z ^ Z.to_nat c / zfact c)) (w a b c) (V a b c)).
  assert (G : cylB p lo1 hi1 lo hi (mono a b c) (RInt (fun t => Re (RtoC (cos t ^ Z.to_nat a * sin t ^ Z.to_nat b)) * V a b c t) (- p) p,
     RInt (fun t => Im (RtoC (cos t ^ Z.to_nat a * sin t ^ Z.to_nat b)) * V a b c t) (- p) p)).
  { unfold cylB. eapply is_int3_ext; [|apply S3].
    - intros th r z. cbv beta. unfold mono. rewrite dp_RtoC, !pw_nonneg by assumption. rewrite <- !RtoC_mult. f_equal.
      rewrite !Rpow_mult_distr. replace (Z.to_nat (a + b + 1)) with (S (Z.to_nat a + Z.to_nat b)) by lia. cbn [pow]. rewrite pow_add. unfold Rdiv. ring.
    - intros r. unfold w. 
      assert (F0 := zfact_neq0 c). assert (F1 : INR (S (Z.to_nat c)) <> 0) by (apply not_0_INR; lia).
      apply (is_RInt_scal (fun z => z ^ Z.to_nat c / zfact c) (lo r) (hi r) (r ^ Z.to_nat (a + b + 1))).
      replace ((hi r ^ S (Z.to_nat c) - lo r ^ S (Z.to_nat c)) / (INR (S (Z.to_nat c)) * zfact c))
        with (hi r ^ S (Z.to_nat c) / (INR (S (Z.to_nat c)) * zfact c) - lo r ^ S (Z.to_nat c) / (INR (S (Z.to_nat c)) * zfact c)) by (field; auto).
      apply (is_RInt_derive (V := R_CompleteNormedModule) (fun z => z ^ S (Z.to_nat c) / (INR (S (Z.to_nat c)) * zfact c)) (fun z => z ^ Z.to_nat c / zfact c)).
      + intros z _. auto_derive; [trivial|]. change (match Z.to_nat c with 0%nat => 1 | S _ => INR (Z.to_nat c) + 1 end) with (INR (S (Z.to_nat c))). field. auto.
      + intros z _. apply cont_der. auto_derive. trivial.
    - intros th. apply cont_int. intros t _. apply Cw.
    - intros th Hth. set (k := Rmin (lo1 th) (hi1 th) - 1). apply (cont_bounds (w a b c) k).
      + intros r _. apply Cw.
      + unfold k. assert (G1 := Rmin_l (lo1 th) (hi1 th)). lra.
      + unfold k. assert (G1 := Rmin_r (lo1 th) (hi1 th)). lra.
      + now apply Cl.
      + now apply Ch.
    - intros th. apply (cont_der (fun t => cos t ^ Z.to_nat a * sin t ^ Z.to_nat b)). auto_derive. trivial.
    - intros th. apply (cont_der (fun t => 0)). apply @ex_derive_const. }
  eapply reg_val; [|exact G]. apply C_eq; [reflexivity|]. cbn [RtoC snd Im].
  apply is_RInt_unique. apply (is_RInt_ext (fun _ : R => 0)); [intros t _; match goal with |- @eq _ ?x ?y => change (@eq R x y) end; ring|].
  assert (K := is_RInt_const (V := R_NormedModule) (- p) p 0). replace (scal (p - - p) (0 : R_NormedModule)) with (0 : R_NormedModule) in K by (unfold scal; cbn; unfold mult; cbn; ring). exact K.
Qed.
Lemma rsolid_body (B : body) (mu : Z -> Z -> Z -> R) l m : regular B ->
  (forall a b c, (0 <= a)%Z -> (0 <= b)%Z -> (0 <= c)%Z -> B (mono a b c) (RtoC (mu a b c))) -> (0 <= m <= l)%Z ->
  exists I, B (fun x y z => rsolid l m (x, y, z)) I.
Proof.
  intros RB H Hm. eexists. unfold rsolid. apply (reg_scal B RB (RtoC (nrm l m)) (fun x y z => solid l m x y z)). apply (mono_solid B mu l m RB H Hm).
Qed.
Lemma cyl_inner (p : R) (lo1 hi1 lo hi : R -> R) eps tpl L rho : accurate eps tpl -> (0 <= L)%Z ->
  (forall r : R, ex_derive lo r) -> (forall r : R, ex_derive hi r) ->
  (forall th, Rmin (- p) p <= th <= Rmax (- p) p -> continuous lo1 th) -> (forall th, Rmin (- p) p <= th <= Rmax (- p) p -> continuous hi1 th) ->
  (forall u, lo1 (- u) = lo1 u) -> (forall u, hi1 (- u) = hi1 u) ->
  let q := num_finish L rho (fun l m => tpl (cyl_integrand_qlm l m) (- p) p lo1 hi1 (fun _ => lo) (fun _ => hi)) in
  deg q = L /\ approx_inner eps q rho (cylB p lo1 hi1 lo hi).
Proof.
  intros HA HL Dl Dh Cl Ch El Eh. destruct (cyl_mono p lo1 hi1 lo hi Dl Dh Cl Ch) as (mu & Hmu).
  apply (num_assemble (cylB p lo1 hi1 lo hi) (fun l m x y z => rsolid l m (x, y, z)) eps L rho); [assumption|apply regular_cylB|intros; apply VInt.rsolid_symm|].
  intros l m Hm Hl. destruct (rsolid_body _ mu l m (regular_cylB _ _ _ _ _) Hmu Hm) as (I & HI). exists I. split; [exact HI|]. split.
  - apply (int3_sym_outer p lo1 hi1 (fun _ => lo) (fun _ => hi) (fun ph r z => RtoC r * rsolid l m (r * cos ph, r * sin ph, z)%R)%C); auto.
    intros u v w. unfold rsolid. rewrite !solid_cyl by assumption. rewrite !Cconj_mult, !Cconj_RtoC, cexpi_conj. do 4 f_equal. ring.
  - apply HA. eapply is_int3_ext; [|apply int3_re, HI]. intros u v w. cbv beta. now rewrite cyl_integrand_ok.
Qed.

(* ---- bodies described in Cartesian coordinates: |y| <= s(x) ---- *)
Definition cartB (p : R) (s : R -> R) (lo hi : R -> R -> R) : body := fun f I => is_int3 (- p) p (fun x => - s x) s lo hi f I.
Lemma regular_cartB p s lo hi : regular (cartB p s lo hi).
Proof. apply (regular_int3 (- p) p (fun x => - s x) s lo hi (fun f => f)); intros; auto. Qed.
Lemma cart_inner (p : R) (s : R -> R) (lo hi : R -> R -> R) eps tpl L rho mu : accurate eps tpl -> (0 <= L)%Z ->
  (forall a b c, (0 <= a)%Z -> (0 <= b)%Z -> (0 <= c)%Z -> cartB p s lo hi (mono a b c) (RtoC (mu a b c))) ->
  (forall u v, lo u (- v) = lo u v) -> (forall u v, hi u (- v) = hi u v) ->
  let q := num_finish L rho (fun l m => tpl (cart_integrand_qlm_zyx l m) (- p) p (fun x => - s x) s lo hi) in
  deg q = L /\ approx_inner eps q rho (cartB p s lo hi).
Proof.
  intros HA HL Hmu El Eh.
  apply (num_assemble (cartB p s lo hi) (fun l m x y z => rsolid l m (x, y, z)) eps L rho); [assumption|apply regular_cartB|intros; apply VInt.rsolid_symm|].
  intros l m Hm Hl. destruct (rsolid_body _ mu l m (regular_cartB _ _ _ _) Hmu Hm) as (I & HI). exists I. split; [exact HI|]. split.
  - apply (int3_sym_mid (- p) p s lo hi (fun x y z => rsolid l m (x, y, z))); auto.
    intros x y z. unfold rsolid. rewrite Cconj_mult, Cconj_RtoC. f_equal. rewrite !solid_terms, zsum_conj by assumption. apply zsum_ext. intros k Hk.
    rewrite !Cconj_mult, !dp_conj, Cconj_RtoC. do 3 f_equal; unfold A_, B_; apply C_eq; cbn; field.
  - apply HA. eapply is_int3_ext; [|apply int3_re, HI]. intros u v w. cbv beta. now rewrite cart_integrand_ok.
Qed.
(* monomials: the z bounds depend on one coordinate only *)
Lemma zpow_int (n : nat) (f : R) (lo hi : R) : f <> 0 -> is_RInt (fun z => z ^ n / f) lo hi ((hi ^ S n - lo ^ S n) / (INR (S n) * f)).
Proof.
  intros F0. assert (F1 : INR (S n) <> 0) by (apply not_0_INR; lia).
  replace ((hi ^ S n - lo ^ S n) / (INR (S n) * f)) with (hi ^ S n / (INR (S n) * f) - lo ^ S n / (INR (S n) * f)) by (field; auto).
  apply (is_RInt_derive (V := R_CompleteNormedModule) (fun z => z ^ S n / (INR (S n) * f)) (fun z => z ^ n / f)).
  - intros z _. auto_derive; [trivial|]. change (match n with 0%nat => 1 | S _ => INR n + 1 end) with (INR (S n)). field. auto.
  - intros z _. apply cont_der. auto_derive. trivial.
Qed.
Lemma cont_comp_pow (f : R -> R) n (t : R) : continuous f t -> continuous (fun t => f t ^ n) t.
Proof. intros H. apply (continuous_comp f (fun x => x ^ n)); [exact H|]. apply cont_der. auto_derive. trivial. Qed.
Lemma cont_opp (f : R -> R) (t : R) : continuous f t -> continuous (fun t => - f t) t.
Proof. intros H. exact (continuous_opp (K := R_AbsRing) (V := R_NormedModule) f t H). Qed.
Lemma cont_minus (f g : R -> R) (t : R) : continuous f t -> continuous g t -> continuous (fun t => f t - g t) t.
Proof. intros H1 H2. exact (continuous_minus (K := R_AbsRing) (V := R_NormedModule) f g t H1 H2). Qed.
Lemma cont_sqrt (f : R -> R) (t : R) : continuous f t -> continuous (fun t => sqrt (f t)) t.
Proof. intros H. apply (continuous_comp f sqrt); [exact H|apply continuous_sqrt]. Qed.
Lemma real_cart (p : R) (s : R -> R) (lo hi : R -> R -> R) (f : R -> R -> R -> R) (g : R -> R -> R) (h : R -> R) :
  (forall x y, is_RInt (f x y) (lo x y) (hi x y) (g x y)) -> (forall x, is_RInt (g x) (- s x) (s x) (h x)) -> (forall x, continuous h x) ->
  cartB p s lo hi (fun x y z => RtoC (f x y z)) (RtoC (RInt h (- p) p)).
Proof.
  intros H1 H2 H3. exists (fun x y => RtoC (g x y)), (fun x => RtoC (h x)). split; [|split].
  - intros. apply is_CInt_real, H1.
  - intros. apply is_CInt_real, H2.
  - apply is_CInt_real, cont_int. auto.
Qed.
Lemma mono_real a b c x y z : (0 <= a)%Z -> (0 <= b)%Z -> (0 <= c)%Z -> mono a b c x y z = RtoC (x ^ Z.to_nat a * y ^ Z.to_nat b * (z ^ Z.to_nat c / zfact c)).
Proof. intros. unfold mono. rewrite dp_RtoC, !pw_nonneg by assumption. now rewrite <- RtoC_mult. Qed.
(* bounds depending on y *)
Lemma cart_mono_y (p : R) (s : R -> R) (lo hi : R -> R) : (forall x, continuous s x) -> (forall y, continuous lo y) -> (forall y, continuous hi y) ->
  exists mu, forall a b c, (0 <= a)%Z -> (0 <= b)%Z -> (0 <= c)%Z -> cartB p s (fun _ => lo) (fun _ => hi) (mono a b c) (RtoC (mu a b c)).
Proof.
  intros Cs Cl Ch.
  set (g := fun (b c : Z) (y : R) => y ^ Z.to_nat b * ((hi y ^ S (Z.to_nat c) - lo y ^ S (Z.to_nat c)) * / (INR (S (Z.to_nat c)) * zfact c))).
  assert (Cg : forall b c y, continuous (g b c) y).
  { intros b c y. unfold g. apply cont_mult; [apply cont_der; auto_derive; trivial|]. apply cont_mult; [|apply cont_der, @ex_derive_const].
    apply cont_minus; apply cont_comp_pow; auto. }
  exists (fun a b c => RInt (fun x => x ^ Z.to_nat a * RInt (g b c) (- s x) (s x)) (- p) p). intros a b c Ha Hb Hc.
  eapply (reg_ext _ (regular_cartB _ _ _ _)); [intros x y z; symmetry; now apply mono_real|].
  apply (real_cart p s _ _ (fun x y z => x ^ Z.to_nat a * y ^ Z.to_nat b * (z ^ Z.to_nat c / zfact c)) (fun x y => x ^ Z.to_nat a * g b c y)).
  - intros x y. unfold g. rewrite <- Rmult_assoc. apply (is_RInt_scal (fun z => z ^ Z.to_nat c / zfact c) (lo y) (hi y)). apply zpow_int, zfact_neq0.
  - intros x. apply (is_RInt_scal (g b c)). apply cont_int. auto.
  - intros x. apply cont_mult; [apply cont_der; auto_derive; trivial|]. set (k := Rmin (- s x) (s x) - 1). apply (cont_bounds (g b c) k (fun x => - s x) s); auto.
    + unfold k. assert (G1 := Rmin_l (- s x) (s x)). lra.
    + unfold k. assert (G1 := Rmin_r (- s x) (s x)). lra.
    + apply cont_opp. auto.
Qed.
(* bounds depending on x *)
Lemma cart_mono_x (p : R) (s : R -> R) (lo hi : R -> R) : (forall x, continuous s x) -> (forall y, continuous lo y) -> (forall y, continuous hi y) ->
  exists mu, forall a b c, (0 <= a)%Z -> (0 <= b)%Z -> (0 <= c)%Z -> cartB p s (fun x _ => lo x) (fun x _ => hi x) (mono a b c) (RtoC (mu a b c)).
Proof.
  intros Cs Cl Ch.
  set (g := fun (c : Z) (x : R) => (hi x ^ S (Z.to_nat c) - lo x ^ S (Z.to_nat c)) * / (INR (S (Z.to_nat c)) * zfact c)).
  assert (Cg : forall c y, continuous (g c) y).
  { intros c y. unfold g. apply cont_mult; [|apply cont_der, @ex_derive_const]. apply cont_minus; apply cont_comp_pow; auto. }
  exists (fun a b c => RInt (fun x => x ^ Z.to_nat a * g c x * RInt (fun y => y ^ Z.to_nat b) (- s x) (s x)) (- p) p). intros a b c Ha Hb Hc.
  eapply (reg_ext _ (regular_cartB _ _ _ _)); [intros x y z; symmetry; now apply mono_real|].
  apply (real_cart p s _ _ (fun x y z => x ^ Z.to_nat a * y ^ Z.to_nat b * (z ^ Z.to_nat c / zfact c)) (fun x y => x ^ Z.to_nat a * g c x * y ^ Z.to_nat b)).
  - intros x y. unfold g. replace (x ^ Z.to_nat a * ((hi x ^ S (Z.to_nat c) - lo x ^ S (Z.to_nat c)) * / (INR (S (Z.to_nat c)) * zfact c)) * y ^ Z.to_nat b)
      with (x ^ Z.to_nat a * y ^ Z.to_nat b * ((hi x ^ S (Z.to_nat c) - lo x ^ S (Z.to_nat c)) / (INR (S (Z.to_nat c)) * zfact c))) by (unfold Rdiv; ring).
    apply (is_RInt_scal (fun z => z ^ Z.to_nat c / zfact c) (lo x) (hi x)). apply zpow_int, zfact_neq0.
  - intros x. apply (is_RInt_scal (fun y => y ^ Z.to_nat b)). apply cont_int. intros. apply cont_der. auto_derive. trivial.
  - intros x. apply cont_mult; [apply cont_mult; [apply cont_der; auto_derive; trivial|auto]|]. set (k := Rmin (- s x) (s x) - 1).
    apply (cont_bounds (fun y => y ^ Z.to_nat b) k (fun x => - s x) s); auto.
    + intros. apply cont_der. auto_derive. trivial.
    + unfold k. assert (G1 := Rmin_l (- s x) (s x)). lra.
    + unfold k. assert (G1 := Rmin_r (- s x) (s x)). lra.
    + apply cont_opp. auto.
Qed.
