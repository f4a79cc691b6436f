(* The closed forms of qlmACH.py are volume integrals: cylinder segment and slanted hole. *)
From Verif Require Export AchProofs3.
From Verif Require Import ClebschGordanProofs TranslationsProofs.
From Verif Require Import Cplx.
Open Scope C_scope.

(* antiderivatives of sin^n and of cos^a sin^n *)
Fixpoint SF (n : nat) (u : R) : R :=
  match n with
  | O => u
  | S n' => match n' with O => (- cos u)%R | S k => (- (sin u ^ n' * cos u) / INR n + INR n' / INR n * SF k u)%R end
  end.
Fixpoint TF (a n : nat) (u : R) : R :=
  match a with
  | O => SF n u
  | S a' => match a' with O => (sin u ^ (S n) / INR (S n))%R | S k => (TF k n u - TF k (S (S n)) u)%R end
  end.
Lemma SF_der n u : is_derive (SF n) u (sin u ^ n)%R.
Proof.
  assert (H : forall n, is_derive (SF n) u (sin u ^ n)%R /\ is_derive (SF (S n)) u (sin u ^ (S n))%R).
  { clear n. induction n as [|n [IH1 IH2]].
    - split; cbn [SF]; auto_derive; auto; simpl; ring.
    - split; [exact IH2|].
      assert (Hn : INR (S (S n)) <> 0%R) by (apply not_0_INR; lia).
      apply (is_derive_ext (fun u => (- (sin u ^ S n * cos u) / INR (S (S n)) + INR (S n) / INR (S (S n)) * SF n u)%R)); [intros t; reflexivity|].
      assert (D1 : is_derive (fun u => (- (sin u ^ S n * cos u) / INR (S (S n)))%R) u (- (INR (S n) * cos u * sin u ^ n * cos u + sin u ^ S n * - sin u) / INR (S (S n)))%R).
      { generalize dependent (INR (S (S n))). intros N HN. clear IH1 IH2. change n with (pred (S n)) at 3. generalize (S n). intros k. auto_derive; [exact I|]. field. assumption. }
      assert (D2 : is_derive (fun u => (INR (S n) / INR (S (S n)) * SF n u)%R) u (INR (S n) / INR (S (S n)) * sin u ^ n)%R).
      { apply is_derive_scal. exact IH1. }
      assert (E : (sin u ^ S (S n) = - (INR (S n) * cos u * sin u ^ n * cos u + sin u ^ S n * - sin u) / INR (S (S n)) + INR (S n) / INR (S (S n)) * sin u ^ n)%R).
      { assert (Hs := sin2_cos2 u). unfold Rsqr in Hs. rewrite <- !tech_pow_Rmult. clear D1 D2 IH1 IH2. generalize (sin u ^ n)%R. intros P.
        replace (INR (S n) * cos u * P * cos u)%R with (INR (S n) * P * (1 - sin u * sin u))%R by (rewrite <- Hs; ring).
        rewrite (S_INR (S n)) in *. field. assumption. }
      rewrite E. exact (is_derive_plus (V := R_NormedModule) _ _ _ _ _ D1 D2). }
  apply H.
Qed.
Lemma TF_der a n u : is_derive (TF a n) u (cos u ^ a * sin u ^ n)%R.
Proof.
  assert (H : forall a, (forall n, is_derive (TF a n) u (cos u ^ a * sin u ^ n)%R) /\ (forall n, is_derive (TF (S a) n) u (cos u ^ S a * sin u ^ n)%R)).
  { clear a n. induction a as [|a [IH1 IH2]].
    - split; intros n.
      + cbn [TF]. replace (cos u ^ 0 * sin u ^ n)%R with (sin u ^ n)%R by (simpl; ring). apply (is_derive_ext (SF n)); [reflexivity|apply SF_der].
      + assert (Hn : INR (S n) <> 0%R) by (apply not_0_INR; lia).
        apply (is_derive_ext (fun u => (sin u ^ S n / INR (S n))%R)); [intros t; reflexivity|].
        change n with (pred (S n)) at 3. generalize dependent (S n). intros k Hk. auto_derive; [exact I|]. simpl (cos u ^ 1)%R. field. assumption.
    - split; [exact IH2|]. intros n.
      apply (is_derive_ext (fun u => (TF a n u - TF a (S (S n)) u)%R)); [intros t; reflexivity|].
      replace (cos u ^ S (S a) * sin u ^ n)%R with (cos u ^ a * sin u ^ n - cos u ^ a * sin u ^ S (S n))%R.
      + exact (is_derive_minus (V := R_NormedModule) _ _ _ _ _ (IH1 n) (IH1 (S (S n)))).
      + assert (Hs := sin2_cos2 u). unfold Rsqr in Hs. rewrite <- !tech_pow_Rmult.
        replace (cos u * (cos u * cos u ^ a))%R with ((1 - sin u * sin u) * cos u ^ a)%R by (rewrite <- Hs; ring). ring. }
  apply H.
Qed.
Lemma trig_int a n x y : is_CInt (fun u => RtoC (cos u ^ a * sin u ^ n)) x y (RtoC (TF a n y - TF a n x)).
Proof.
  rewrite RtoC_minus. apply (is_CInt_ftc (fun u => RtoC (TF a n u))).
  - intros u. split; cbn.
    + apply TF_der.
    + apply (is_derive_const (V := R_NormedModule)).
  - intros u. exists (RtoC (INR a * - sin u * cos u ^ pred a * sin u ^ n + cos u ^ a * (INR n * cos u * sin u ^ pred n))). split; cbn.
    + auto_derive; [repeat split|]. ring.
    + apply (is_derive_const (V := R_NormedModule)).
Qed.

(* ---- segment of a cylinder -------------------------------------------------------- *)
Lemma regular_seg t r d : regular (cylinder_segment t r d).
Proof. apply (regular_int3 _ _ _ _ _ _ (fun f u y z => RtoC (r * sin u) * f (r * cos u)%R y z)); intros; [now rewrite H|ring|ring|rewrite Cconj_mult, Cconj_RtoC; ring]. Qed.
Definition mu_seg (t r al : R) (a b c : Z) : R :=
  (zval t c * (even2 b * pw r (a + b + 2) / IZR (b + 1)) * (TF (Z.to_nat a) (Z.to_nat (b + 2)) al - TF (Z.to_nat a) (Z.to_nat (b + 2)) 0))%R.
Lemma seg_mono t r d a b c : (0 <= a)%Z -> (0 <= b)%Z -> (0 <= c)%Z -> cylinder_segment t r d (mono a b c) (RtoC (mu_seg t r (acos (d / r)) a b c)).
Proof.
  intros Ha Hb Hc. unfold cylinder_segment, mono.
  exists (fun u y => RtoC (r * sin u * zval t c * pw (r * cos u) a) * RtoC (pw y b)),
    (fun u => RtoC (zval t c * (even2 b * pw r (a + b + 2) / IZR (b + 1))) * RtoC (cos u ^ Z.to_nat a * sin u ^ Z.to_nat (b + 2))).
  split; [|split].
  - intros u y. apply (is_CInt_ext (fun z => RtoC (r * sin u * (pw (r * cos u) a * pw y b)) * dp (RtoC z) c)); [intros; rewrite !RtoC_mult; ring|].
    eapply is_CInt_val; [|apply is_CInt_scal; apply zint; assumption]. rewrite <- !RtoC_mult. f_equal. ring.
  - intros u. eapply is_CInt_val; [|apply is_CInt_scal; apply sym_int; assumption]. rewrite <- !RtoC_mult. f_equal.
    rewrite !pw_mult by lia. replace (a + b + 2)%Z with (a + (b + 1) + 1)%Z by ring. rewrite (pw_add_nonneg r (a + (b + 1)) 1), (pw_add_nonneg r a), !pw_1 by lia.
    rewrite !(pw_nonneg (cos u)), !(pw_nonneg (sin u)) by lia. replace (Z.to_nat (b + 2)) with (S (Z.to_nat (b + 1))) by lia. rewrite <- tech_pow_Rmult.
    field. apply IZR_pos_neq0; lia.
  - eapply is_CInt_val; [|apply is_CInt_scal; apply trig_int]. rewrite <- !RtoC_mult. f_equal.
Qed.
Ltac tc := cbv [TF SF Z.to_nat Pos.to_nat Pos.iter_op Nat.add Init.Nat.add]; rewrite ?sin_0, ?cos_0; cbn [INR].
Lemma seg_volume t r al : mu_seg t r al 0 0 0 = (t * r ^ 2 * (al - sin al * cos al))%R.
Proof. unfold mu_seg, zval, even2. zc. cbv iota. tc. rw_zf. rw_pw. field. Qed.
Lemma ach_cylindrical_section_body LMax rho t r d q : (0 <= LMax)%Z -> ach_cylindrical_section LMax rho t r d = Ok q ->
  deg q = LMax /\ density_moments every q rho (cylinder_segment t r d).
Proof.
  intros HL E. unfold ach_cylindrical_section in E. destruct (_ || _)%bool eqn:G; [discriminate|]. apply Ok_inj in E. subst q.
  apply Bool.orb_false_elim in G. destruct G as [G G3]. apply Bool.orb_false_elim in G. destruct G as [G1 G2].
  apply rle_false in G1. apply rle_false in G2. apply rle_false in G3.
  assert (Hr : r <> 0%R) by lra. split; [apply deg_ach|].
  set (k := (d / r)%R). assert (Hk : (0 < k < 1)%R).
  { unfold k. split; [apply Rdiv_lt_0_compat; lra|]. apply (Rmult_lt_reg_r r); [lra|]. replace (d / r * r)%R with d by (field; lra). lra. }
  assert (Ed : d = (k * r)%R) by (unfold k; field; lra).
  assert (Ec : cos (acos k) = k) by (apply cos_acos; lra).
  assert (Es : sin (acos k) = sqrt (1 - k ^ 2)) by (rewrite sin_acos by lra; f_equal; unfold Rsqr; ring).
  assert (Ess : (sqrt (1 - k ^ 2) * sqrt (1 - k ^ 2) = 1 - k * k)%R) by (rewrite sqrt_sqrt; [ring|]; nra).
  assert (Ha : (0 < acos k < PI / 2)%R).
  { assert (B := acos_bound k). split.
    - destruct (Rle_lt_or_eq_dec 0 (acos k) (proj1 B)) as [|N]; [assumption|]. rewrite <- N, cos_0 in Ec. lra.
    - destruct (Rlt_or_le (acos k) (PI / 2)) as [|N]; [assumption|]. assert (cos (acos k) <= cos (PI / 2))%R by (apply cos_decr_1; lra). rewrite cos_PI2 in *. lra. }
  set (al := acos k) in *.
  set (V := (t * r ^ 2 * (al - sin al * cos al))%R).
  assert (HV : (0 < V)%R).
  { unfold V. apply Rmult_lt_0_compat; [apply Rmult_lt_0_compat; [lra|apply pow_lt; lra]|]. assert (sin al < al)%R by (apply sin_lt_x; lra).
    assert (0 < sin al)%R by (apply sin_gt_0; lra). rewrite Ec. nra. }
  apply (ach_body _ (mono_int (mu_seg t r al)) rho V); [assumption|reflexivity|apply regular_seg|lra| | |].
  - unfold V. rewrite <- seg_volume. apply mono_000; [apply regular_seg|intros; now apply seg_mono].
  - intros l m Hm _ _. apply mono_solid; [apply regular_seg|intros; now apply seg_mono|assumption].
  - intros l m Hm Hl _. rewrite (Rabs_pos_eq V) by lra. replace (V / V)%R with 1%R by (field; lra). rewrite Rmult_1_r. clear V HV. revert l m Hm Hl.
    unfold ach_cylindrical_section_tab. fold k. fold al. rewrite Ed. 
    apply lm_cases.
    all: ach_open; unfold mu_seg, zval, even2; zc; cbv iota; tc; rw_zf; rw_pw; rewrite ?Es, ?Ec; apply C_eq; cbn [Cmult Cplus Cminus Copp Cdiv Cinv Ci RtoC fst snd Re Im]; sqsplit.
    all: clear - Ess Hr; try clearbody al; generalize dependent (sqrt (1 - k ^ 2)); intros s Ess.
    all: field [s2s s3s s5s s7s s11s Ess]; repeat split; ne0.
Qed.
