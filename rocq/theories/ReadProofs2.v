(* Proofs about read_multiFor.py: the solids that a create statement makes *)
From Verif Require Import ReadSpec ShapesProofs Props_ACH Props_Qlm Props_Rotations Props_Translations TranslationsProofs RotationsProofs RotationsProofs2.
From Verif Require Import QlmProofs QlmProofs2 QlmProofs3 QlmProofs4 QlmProofs5 QlmProofs6 QlmProofs7 AchProofs AchProofs2 AchProofs3 AchProofs4 AchProofs7 AchProofs8 VInt.
From Coq Require Import List ZArith Reals Lia Lra Bool FunctionalExtensionality.
From Verif Require Import Cplx.
Import ListNotations.
Open Scope C_scope.

(* ---- arrays holding the moments of a distribution ---- *)
Record carries (L dg : Z) (D : body) (q : marr) : Prop := mkcarries {
  g_deg : deg q = L; g_real : reality q; g_corners : corners0 q; g_reg : regular D; g_mom : has_moments dg D q }.
Lemma regular_nothing : regular nothing.
Proof.
  constructor; unfold nothing; intros; subst; try reflexivity; try ring. now rewrite Cconj_RtoC.
Qed.
Lemma good_zeros L dg : carries L dg nothing (zeros L).
Proof.
  split; [reflexivity| | |apply regular_nothing|].
  - intros l m _ _. unfold mom, zeros. cbn [at_]. rewrite Cconj_RtoC. ring.
  - intros l m _ _. reflexivity.
  - intros l m _ _. reflexivity.
Qed.
Lemma good_times0 L dg D q : carries L dg D q -> carries L dg nothing (mkarr (deg q) (fun i j => at_ q i j * 0)).
Proof.
  intros [H1 H2 H3 H4 H5]. split; [exact H1| | |apply regular_nothing|]; unfold mom; cbn [deg at_].
  - intros l m _ _. unfold mom. cbn [at_ deg]. rewrite !Cmult_0_r, Cconj_RtoC. ring.
  - intros l m _ _. unfold mom. cbn [at_ deg]. ring.
  - intros l m _ _. unfold mom. cbn [at_ deg]. unfold nothing. ring.
Qed.
Lemma good_plus L dg D1 D2 q1 q2 : carries L dg D1 q1 -> carries L dg D2 q2 -> carries L dg (together D1 D2) (arr_plus q1 q2).
Proof.
  intros [H1 H2 H3 H4 H5] [K1 K2 K3 K4 K5].
  assert (E : forall l m, mom (arr_plus q1 q2) l m = mom q1 l m + mom q2 l m) by (intros; unfold mom, arr_plus; cbn [deg at_]; now rewrite K1, H1).
  split; [exact H1| | |now apply regular_together|].
  - intros l m Hl Hm. cbn [deg arr_plus] in *. rewrite !E, H2, K2, Cconj_plus by (rewrite ?K1; lia). ring.
  - intros l m Hl Hm. cbn [deg arr_plus] in *. rewrite !E, H3, K3 by (rewrite ?K1; lia). ring.
  - intros l m Hl Hm. rewrite E. exists (mom q1 l m), (mom q2 l m). split; [now apply H5|]. split; [now apply K5|reflexivity].
Qed.
Lemma good_minus L dg D1 D2 q1 q2 : carries L dg D1 q1 -> carries L dg D2 q2 -> carries L dg (together D1 (dense (-1) D2)) (arr_minus q1 q2).
Proof.
  intros [H1 H2 H3 H4 H5] [K1 K2 K3 K4 K5].
  assert (E : forall l m, mom (arr_minus q1 q2) l m = mom q1 l m - mom q2 l m) by (intros; unfold mom, arr_minus; cbn [deg at_]; now rewrite K1, H1).
  split; [exact H1| | |apply regular_together; [assumption|now apply regular_dense]|].
  - intros l m Hl Hm. cbn [deg arr_minus] in *. rewrite !E, H2, K2 by (rewrite ?K1; lia). unfold Cminus. rewrite Cconj_plus, Cconj_opp. ring.
  - intros l m Hl Hm. cbn [deg arr_minus] in *. rewrite !E, H3, K3 by (rewrite ?K1; lia). ring.
  - intros l m Hl Hm. rewrite E. exists (mom q1 l m), (RtoC (-1) * mom q2 l m). split; [now apply H5|]. split.
    + exists (mom q2 l m). split; [now apply K5|reflexivity].
    + ring.
Qed.
Lemma good_translate L dg D q t : (0 <= dg <= L)%Z -> carries L dg D q -> carries L dg (shifted t D) (translate_qlm q t).
Proof.
  intros HL [H1 H2 H3 H4 H5]. subst L. destruct (translate_qlm_holds q t ltac:(lia) H2 H3) as [E _]. destruct (translate_reality q t ltac:(lia) H2 H3).
  split; [exact E|assumption|assumption|now apply regular_shifted|]. apply translate_body; (assumption || lia).
Qed.
Lemma good_rotate L dg D q a b c : (0 <= dg <= L)%Z -> carries L dg D q -> exists q', rotate_qlm q a b c = Ok q' /\ carries L dg (ShapeSpec.turned a b c D) q'.
Proof.
  intros HL [H1 H2 H3 H4 H5]. subst L. destruct (rotate_qlm_mom q a b c ltac:(lia)) as (q' & E & Ed & _). exists q'. split; [exact E|].
  destruct (C11_rotated_arrays q a b c q' ltac:(lia) H2 H3 E). split; [exact Ed|assumption|assumption|now apply regular_eulerD|]. now apply (rotate_body dg D q a b c).
Qed.
Lemma good_incl L dg (D D' : body) q : regular D' -> (forall f I, D f I -> D' f I) -> carries L dg D q -> carries L dg D' q.
Proof. intros R' H [H1 H2 H3 H4 H5]. split; try assumption. intros l m Hl Hm. apply H. now apply H5. Qed.
Lemma good_dense L dg B q mass rho V : (0 <= dg <= L)%Z -> regular B -> deg q = L -> moments_of_body q mass B -> B (fun _ _ _ => 1) (RtoC V) -> mass = (rho * V)%R ->
  carries L dg (dense rho B) q.
Proof.
  intros HL RB Hd M BV ->. destruct (body_real q _ B RB ltac:(lia) M) as (R1 & R2 & _). split; [exact Hd|exact R1|exact R2|now apply regular_dense|].
  destruct M as (V' & HV & BV' & HM & _). assert (E : V' = V) by (apply RtoC_inj; exact (reg_unique B RB _ _ _ BV' BV)). subst V'.
  intros l m Hl Hm. destruct (HM l m ltac:(lia) Hm) as (I & BI & E). exists I. split; [exact BI|]. rewrite E. f_equal. f_equal. field. exact HV.
Qed.
(* a solid of the same monomial integrals has the same moments *)
Lemma good_mono L dg rho (B B' : body) q mu : regular B' -> regular B ->
  (forall a b c, (0 <= a)%Z -> (0 <= b)%Z -> (0 <= c)%Z -> B (mono a b c) (RtoC (mu a b c))) ->
  (forall a b c, (0 <= a)%Z -> (0 <= b)%Z -> (0 <= c)%Z -> B' (mono a b c) (RtoC (mu a b c))) ->
  carries L dg (dense rho B) q -> carries L dg (dense rho B') q.
Proof.
  intros R' RB HB HB' [H1 H2 H3 H4 H5]. split; [exact H1|exact H2|exact H3|now apply regular_dense|].
  assert (P : forall l m, (0 <= m <= l)%Z -> exists J, B (fun x y z => rsolid l m (x, y, z)) J /\ B' (fun x y z => rsolid l m (x, y, z)) J).
  { intros l m Hm. exists (RtoC (nrm l m) * mono_int mu l m). split.
    - apply (reg_scal B RB (RtoC (nrm l m)) (fun x y z => solid l m x y z)). now apply mono_solid.
    - apply (reg_scal B' R' (RtoC (nrm l m)) (fun x y z => solid l m x y z)). now apply mono_solid. }
  assert (N : forall l m, (Z.abs m <= l)%Z -> exists J, B (fun x y z => rsolid l m (x, y, z)) J /\ B' (fun x y z => rsolid l m (x, y, z)) J).
  { intros l m Hm. destruct (Z_le_gt_dec 0 m) as [G|G]; [apply P; lia|]. destruct (P l (- m)%Z ltac:(lia)) as (J & J1 & J2). exists (sgnC (- m) * Cconj J).
    split.
    - apply (reg_ext B RB (fun x y z => sgnC (- m) * Cconj (rsolid l (- m) (x, y, z)))); [intros; rewrite <- VInt.rsolid_symm; now rewrite Z.opp_involutive|].
      apply (reg_scal B RB). now apply (reg_conj B RB (fun x y z => rsolid l (- m) (x, y, z))).
    - apply (reg_ext B' R' (fun x y z => sgnC (- m) * Cconj (rsolid l (- m) (x, y, z)))); [intros; rewrite <- VInt.rsolid_symm; now rewrite Z.opp_involutive|].
      apply (reg_scal B' R'). now apply (reg_conj B' R' (fun x y z => rsolid l (- m) (x, y, z))). }
  intros l m Hl Hm. destruct (H5 l m Hl Hm) as (I & BI & E). destruct (N l m Hm) as (J & J1 & J2). exists J. split; [exact J2|].
  rewrite E. f_equal. exact (reg_unique B RB _ _ _ BI J1).
Qed.

(* ---- a circular segment is a sector without its triangle ---- *)
Ltac rring := intros; cbv beta; match goal with |- @eq _ ?x ?y => change (@eq R x y) end; unfold Rdiv; ring.
Lemma trig_der a b u : is_derive (fun u => (cos u ^ S a * sin u ^ S b)%R) u (INR (S a) * - sin u * cos u ^ a * sin u ^ S b + cos u ^ S a * (INR (S b) * cos u * sin u ^ b))%R.
Proof. change b with (pred (S b)) at 4. change a with (pred (S a)) at 3. generalize (S a), (S b). intros k n. auto_derive; [repeat split|]. ring. Qed.
Lemma pow_opp_1 x n : ((- x) ^ n = (-1) ^ n * x ^ n)%R.
Proof. rewrite <- Rpow_mult_distr. f_equal. ring. Qed.
Lemma seg_identity (a b : nat) al : (0 < al)%R ->
  let E := (1 + (-1) ^ b)%R in let n := INR (a + b + 2) in
  ((TF a b al - TF a b (- al)) / n - E * (cos al ^ S a * sin al ^ S b) / (INR (S b) * n) - E / INR (S b) * (TF a (S (S b)) al - TF a (S (S b)) 0))%R = 0%R.
Proof.
  intros Hal E n.
  set (F := fun u => ((TF a b u - TF a b (- u)) / n - E * (cos u ^ S a * sin u ^ S b) / (INR (S b) * n) - E / INR (S b) * (TF a (S (S b)) u - TF a (S (S b)) 0))%R).
  assert (Hn : n <> 0%R) by (apply not_0_INR; lia). assert (Hb : INR (S b) <> 0%R) by (apply not_0_INR; lia).
  assert (HN : n = (INR (S a) + INR (S b))%R) by (unfold n; rewrite <- plus_INR; f_equal; lia).
  assert (F0 : F 0%R = 0%R).
  { unfold F. rewrite Ropp_0, sin_0. replace (0 ^ S b)%R with 0%R by (simpl; ring). field. split; assumption. }
  assert (D : forall u, is_derive F u 0%R).
  { intros u.
    assert (D1 : is_derive (fun u => ((TF a b u - TF a b (- u)) / n)%R) u ((cos u ^ a * sin u ^ b + cos (- u) ^ a * sin (- u) ^ b) / n)%R).
    { apply (is_derive_ext (fun u => (/ n * (TF a b u - TF a b (- u)))%R)); [rring|].
      replace ((cos u ^ a * sin u ^ b + cos (- u) ^ a * sin (- u) ^ b) / n)%R with (/ n * (cos u ^ a * sin u ^ b - (-1) * (cos (- u) ^ a * sin (- u) ^ b)))%R by (unfold Rdiv; ring).
      apply is_derive_scal. apply (is_derive_minus (V := R_NormedModule)); [apply TF_der|].
      apply (is_derive_comp (TF a b) (fun u => (- u)%R)); [apply TF_der|]. auto_derive; [exact I|rring]. }
    assert (D2 : is_derive (fun u => (E * (cos u ^ S a * sin u ^ S b) / (INR (S b) * n))%R) u
       (E / (INR (S b) * n) * (INR (S a) * - sin u * cos u ^ a * sin u ^ S b + cos u ^ S a * (INR (S b) * cos u * sin u ^ b)))%R).
    { apply (is_derive_ext (fun u => (E / (INR (S b) * n) * (cos u ^ S a * sin u ^ S b))%R)); [rring|]. apply is_derive_scal. apply trig_der. }
    assert (D3 : is_derive (fun u => (E / INR (S b) * (TF a (S (S b)) u - TF a (S (S b)) 0))%R) u (E / INR (S b) * (cos u ^ a * sin u ^ S (S b) - 0))%R).
    { apply is_derive_scal. apply (is_derive_minus (V := R_NormedModule)); [apply TF_der|apply (is_derive_const (V := R_NormedModule))]. }
    assert (G := is_derive_minus (V := R_NormedModule) _ _ _ _ _ (is_derive_minus (V := R_NormedModule) _ _ _ _ _ D1 D2) D3).
    match type of G with is_derive _ _ ?d => replace 0%R with d; [exact G|] end.
    unfold minus, plus, opp; cbn -[INR pow cos sin].
    rewrite cos_neg, sin_neg, pow_opp_1. assert (Hs := sin2_cos2 u). unfold Rsqr in Hs. rewrite <- !tech_pow_Rmult.
    clear D1 D2 D3 G F0 F. generalize dependent n. intros n Hn HN. unfold E. generalize dependent (INR (S b)). intros B Hb HN. generalize dependent (INR (S a)). intros A HN. subst n.
    generalize (cos u ^ a)%R (sin u ^ b)%R ((-1) ^ b)%R. intros P Q e.
    assert (Ec : (cos u * cos u = 1 - sin u * sin u)%R) by lra.
    match goal with |- ?lhs = 0%R => replace lhs with ((1 + e) * (P * Q) * (B + A * (sin u * sin u) - B * (cos u * cos u) - (A + B) * (sin u * sin u)) / (B * (A + B)))%R by (field; split; assumption) end.
    rewrite Ec. field. split; assumption. }
  assert (G := eq_is_derive F 0 al (fun t _ => D t) Hal). rewrite F0 in G. symmetry. exact G.
Qed.
Definition mu_sec (t r al : R) (a b c : Z) : R :=
  (zval t c * (pw r (a + b + 2) / IZR (a + b + 2)) * (TF (Z.to_nat a) (Z.to_nat b) al - TF (Z.to_nat a) (Z.to_nat b) (- al)))%R.
Lemma sec_mono t r al a b c : (0 <= a)%Z -> (0 <= b)%Z -> (0 <= c)%Z -> annular_sector t 0 r 0 al (mono a b c) (RtoC (mu_sec t r al a b c)).
Proof.
  intros Ha Hb Hc. unfold annular_sector, mono.
  exists (fun ph s => RtoC (zval t c * (cos ph ^ Z.to_nat a * sin ph ^ Z.to_nat b)) * RtoC (pw s (a + b + 1))),
    (fun ph => RtoC (zval t c * (pw r (a + b + 2) / IZR (a + b + 2))) * RtoC (cos ph ^ Z.to_nat a * sin ph ^ Z.to_nat b)).
  split; [|split].
  - intros ph s. apply (is_CInt_ext (fun z => RtoC (s * (pw (s * cos ph) a * pw (s * sin ph) b)) * dp (RtoC z) c)); [intros; rewrite !RtoC_mult; ring|].
    eapply is_CInt_val; [|apply is_CInt_scal; apply zint; assumption]. rewrite <- !RtoC_mult. f_equal.
    rewrite !pw_mult, (pw_add_nonneg s (a + b) 1), (pw_add_nonneg s a), pw_1, !(pw_nonneg (cos ph)), !(pw_nonneg (sin ph)) by lia. ring.
  - intros ph. eapply is_CInt_val; [|apply is_CInt_scal; apply rint; lia]. rewrite <- !RtoC_mult. f_equal.
    replace (a + b + 1 + 1)%Z with (a + b + 2)%Z by ring. rewrite (pw_nonneg 0) by lia. rewrite pow_i by lia. field. apply IZR_pos_neq0; lia.
  - replace (0 - al)%R with (- al)%R by ring. replace (0 + al)%R with al by ring.
    eapply is_CInt_val; [|apply is_CInt_scal; apply trig_int]. rewrite <- !RtoC_mult. f_equal.
Qed.
Lemma neg1_even b : (0 <= b)%Z -> (1 + (-1) ^ Z.to_nat b)%R = even2 b.
Proof.
  intros Hb. unfold even2. rewrite <- (Z2Nat.id b Hb) at 2. generalize (Z.to_nat b). intros n. clear.
  induction n as [|n IH]; [cbn; ring|]. rewrite Nat2Z.inj_succ, Z.even_succ, <- Z.negb_even. cbn [pow]. destruct (Z.even (Z.of_nat n)); cbn [negb]; lra.
Qed.
Lemma seg_split t r al a b c : (0 < al)%R -> (0 <= a)%Z -> (0 <= b)%Z ->
  (mu_sec t r al a b c - mu_tri t (r * cos al) (- (r * sin al)) (r * sin al) a b c)%R = mu_seg t r al a b c.
Proof.
  intros Hal Ha Hb. assert (H := seg_identity (Z.to_nat a) (Z.to_nat b) al Hal). cbv zeta in H. rewrite neg1_even in H by assumption.
  unfold mu_sec, mu_tri, mu_seg.
  replace (pw (r * sin al) (b + 1) - pw (- (r * sin al)) (b + 1))%R with (even2 b * pw (r * sin al) (b + 1))%R
    by (rewrite (pw_opp_base (r * sin al)) by lia; unfold even2; rewrite Z.even_add; destruct (Z.even b); cbn [Z.even eqb Bool.eqb]; ring).
  rewrite !pw_mult by lia. rewrite !(pw_nonneg (cos al)), !(pw_nonneg (sin al)) by lia.
  replace (Z.to_nat (a + 1)) with (S (Z.to_nat a)) by lia. replace (Z.to_nat (b + 1)) with (S (Z.to_nat b)) by lia. replace (Z.to_nat (b + 2)) with (S (S (Z.to_nat b))) by lia.
  replace (INR (Z.to_nat a + Z.to_nat b + 2)) with (IZR (a + b + 2)) in H by (rewrite INR_IZR_INZ; f_equal; lia).
  replace (INR (S (Z.to_nat b))) with (IZR (b + 1)) in H by (rewrite INR_IZR_INZ; f_equal; lia).
  replace (pw r (a + b + 2)) with (pw r (a + 1) * pw r (b + 1))%R by (rewrite <- pw_add_nonneg by lia; f_equal; ring).
  assert (N1 : IZR (a + b + 2) <> 0%R) by (apply IZR_pos_neq0; lia). assert (N2 : IZR (b + 1) <> 0%R) by (apply IZR_pos_neq0; lia).
  revert H. generalize (TF (Z.to_nat a) (Z.to_nat b) al) (TF (Z.to_nat a) (Z.to_nat b) (- al)) (TF (Z.to_nat a) (S (S (Z.to_nat b))) al) (TF (Z.to_nat a) (S (S (Z.to_nat b))) 0).
  intros T1 T2 T3 T4 H. apply Rminus_diag_uniq. 
  match goal with |- ?x = 0%R => match type of H with ?y = 0%R => replace x with (zval t c * (pw r (a + 1) * pw r (b + 1)) * y)%R end end; [rewrite H; ring|].
  field. split; assumption.
Qed.
Lemma acos_lt k : (0 < k < 1)%R -> (0 < acos k < PI / 2)%R /\ cos (acos k) = k /\ (0 < sin (acos k))%R.
Proof.
  intros Hk. assert (Ec : cos (acos k) = k) by (apply cos_acos; lra). assert (B := acos_bound k).
  assert (H0 : (0 < acos k)%R) by (destruct (Rle_lt_or_eq_dec 0 (acos k) (proj1 B)) as [|N]; [assumption|]; rewrite <- N, cos_0 in Ec; lra).
  assert (H1 : (acos k < PI / 2)%R) by (destruct (Rlt_or_le (acos k) (PI / 2)) as [|N]; [assumption|]; assert (cos (acos k) <= cos (PI / 2))%R by (apply cos_decr_1; lra); rewrite cos_PI2 in *; lra).
  split; [lra|]. split; [exact Ec|]. apply sin_gt_0; lra.
Qed.

(* ---- the trapezoid is a difference of triangles ---- *)
Lemma is_CInt_Chasles f a b c u v : is_CInt f a b u -> is_CInt f a c v -> is_CInt f b c (v - u).
Proof.
  intros [A1 A2] [B1 B2]. split; cbn.
  - assert (G := is_RInt_Chasles (V := R_NormedModule) _ _ _ _ _ _ (is_RInt_swap (V := R_NormedModule) _ _ _ _ A1) B1). unfold plus, opp in G. cbn in G. now rewrite Rplus_comm in G.
  - assert (G := is_RInt_Chasles (V := R_NormedModule) _ _ _ _ _ _ (is_RInt_swap (V := R_NormedModule) _ _ _ _ A2) B2). unfold plus, opp in G. cbn in G. now rewrite Rplus_comm in G.
Qed.
Lemma Re_scal_R k z : Re (RtoC k * z) = (k * Re z)%R. Proof. destruct z. unfold Re, Cmult, RtoC. cbn [fst snd]. ring. Qed.
Lemma Im_scal_R k z : Im (RtoC k * z) = (k * Im z)%R. Proof. destruct z. unfold Im, Cmult, RtoC. cbn [fst snd]. ring. Qed.
Lemma is_CInt_lin f k s a b v : is_CInt f (k * a + s) (k * b + s) v -> is_CInt (fun t => RtoC k * f (k * t + s)%R) a b v.
Proof.
  intros [A1 A2]. split.
  - apply (is_RInt_ext (fun t => scal k (Re (f (k * t + s)%R)))); [intros; now rewrite Re_scal_R|]. now apply (is_RInt_comp_lin (V := R_NormedModule) (fun t => Re (f t))).
  - apply (is_RInt_ext (fun t => scal k (Im (f (k * t + s)%R)))); [intros; now rewrite Im_scal_R|]. now apply (is_RInt_comp_lin (V := R_NormedModule) (fun t => Im (f t))).
Qed.
Lemma is_CInt_swap f a b v : is_CInt f a b v -> is_CInt f b a (- v).
Proof. intros [A1 A2]. split; cbn; now apply (is_RInt_swap (V := R_NormedModule)). Qed.
Lemma is_CInt_shift f s a b v : is_CInt f (a + s) (b + s) v -> is_CInt (fun t => f (t + s)%R) a b v.
Proof.
  intros H. apply (is_CInt_ext (fun t => RtoC 1 * f (1 * t + s)%R)); [intros; rewrite Rmult_1_l; ring|]. apply is_CInt_lin. now rewrite !Rmult_1_l.
Qed.
(* t -> s - t *)
Lemma is_CInt_flip f s a b v : is_CInt f (s - b) (s - a) v -> is_CInt (fun t => f (s - t)%R) a b v.
Proof.
  intros H. apply (is_CInt_ext (fun t => RtoC (-1) * (RtoC (-1) * f (-1 * t + s)%R))).
  - intros t. replace (-1 * t + s)%R with (s - t)%R by ring. rewrite Cmult_assoc, <- RtoC_mult. replace (-1 * -1)%R with 1%R by ring. ring.
  - eapply is_CInt_val; [|apply is_CInt_scal; apply is_CInt_lin; apply is_CInt_swap; replace (-1 * b + s)%R with (s - b)%R by ring; replace (-1 * a + s)%R with (s - a)%R by ring; exact H].
    replace (RtoC (-1)) with (- RtoC 1) by (rewrite <- RtoC_opp; f_equal; ring). ring.
Qed.
Lemma trapezoid_split t w3 w4 h f I J : (0 < w3 < w4)%R -> (0 < h)%R -> let hs := (w3 * h / (w4 - w3))%R in
  triangular_prism t (h + hs) (- w4 / 2) (w4 / 2) (fun x y z => f (x - hs)%R y z) I ->
  triangular_prism t hs (- w3 / 2) (w3 / 2) (fun x y z => f (x - hs)%R y z) J -> trapezoidal_plate t w3 w4 h f (I - J).
Proof.
  intros Hw Hh hs (g & k & G1 & G2 & G3) (g' & k' & K1 & K2 & K3).
  assert (Hs : (0 < hs)%R) by (unfold hs; apply Rdiv_lt_0_compat; [apply Rmult_lt_0_compat|]; lra).
  assert (Eg : forall u v, g u v = g' u v) by (intros; exact (is_CInt_unique _ _ _ _ _ (G1 u v) (K1 u v))).
  assert (E3 : (w3 = (w4 - w3) / h * hs)%R) by (unfold hs; field; split; lra). assert (E4 : (w4 = (w4 - w3) / h * (h + hs))%R) by (rewrite Rmult_plus_distr_l, <- E3; field; lra).
  set (s := ((w4 - w3) / h)%R) in *. clearbody hs s.
  assert (Es : (w4 / (h + hs) = w3 / hs)%R) by (rewrite E3, E4; field; split; lra).
  assert (Ek : forall u, k u = k' u).
  { intros u. specialize (G2 u). specialize (K2 u). apply (is_CInt_ext (g u) (g' u)) in G2; [|intros; apply Eg].
    replace (- w4 / 2 * u / (h + hs))%R with (- w3 / 2 * u / hs)%R in G2 by (transitivity (- (w3 / hs) / 2 * u)%R; [field; lra|rewrite <- Es; field; lra]).
    replace (w4 / 2 * u / (h + hs))%R with (w3 / 2 * u / hs)%R in G2 by (transitivity ((w3 / hs) / 2 * u)%R; [field; lra|rewrite <- Es; field; lra]).
    exact (is_CInt_unique _ _ _ _ _ G2 K2). }
  exists (fun u v => g (u + hs)%R v), (fun u => k (u + hs)%R). split; [|split].
  - intros u v. apply (is_CInt_ext (fun z => f (u + hs - hs)%R v z)); [intros; f_equal; ring|]. apply G1.
  - intros u. specialize (G2 (u + hs)%R).
    replace (- ((w3 + (w4 - w3) * (u / h)) / 2))%R with (- w4 / 2 * (u + hs) / (h + hs))%R by (rewrite E3, E4; field; split; lra).
    replace ((w3 + (w4 - w3) * (u / h)) / 2)%R with (w4 / 2 * (u + hs) / (h + hs))%R by (rewrite E3, E4; field; split; lra). exact G2.
  - apply (is_CInt_shift k hs 0 h). rewrite Rplus_0_l. apply (is_CInt_Chasles _ 0); [|exact G3]. apply (is_CInt_ext k'); [intros; now rewrite Ek|exact K3].
Qed.
Lemma trapezoid_flip t w3 w4 h f I : (0 < h)%R ->
  trapezoidal_plate t w3 w4 h (fun x y z => f (h - x)%R (- y)%R z) I -> trapezoidal_plate t w4 w3 h f I.
Proof.
  intros Hh (g & k & G1 & G2 & G3). exists (fun u v => g (h - u)%R (- v)%R), (fun u => k (h - u)%R). split; [|split].
  - intros u v. apply (is_CInt_ext (fun z => f (h - (h - u))%R (- - v)%R z)); [intros; f_equal; ring|]. apply G1.
  - intros u. apply (is_CInt_ext (fun v => g (h - u)%R (0 - v)%R)); [intros; f_equal; ring|]. apply is_CInt_flip. specialize (G2 (h - u)%R).
    replace (0 - (w4 + (w3 - w4) * (u / h)) / 2)%R with (- ((w3 + (w4 - w3) * ((h - u) / h)) / 2))%R by (field; lra).
    replace (0 - - ((w4 + (w3 - w4) * (u / h)) / 2))%R with ((w3 + (w4 - w3) * ((h - u) / h)) / 2)%R by (field; lra). exact G2.
  - apply is_CInt_flip. replace (h - h)%R with 0%R by ring. now rewrite Rminus_0_r.
Qed.

(* ---- the full cone: the azimuth of its middle does not matter ---- *)
Lemma cone_turned L mass P Rad : (0 <= L)%Z -> cone L mass P Rad 0 PI = cone L mass P Rad PI PI.
Proof.
  intros HL. unfold cone. destruct (_ || _ || _ || _)%bool; [reflexivity|]. f_equal. f_equal. apply fill_ext; [lia|]. intros l m Hl Hm. unfold cone_entry. f_equal.
  destruct (Z.eq_dec m 0) as [->|N]; [now rewrite !Rmult_0_l|]. rewrite np_sinc_int by assumption. rewrite Rmult_0_r. ring.
Qed.
