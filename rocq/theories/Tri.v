(* Algebra of the trinomial polynomials tri / solid harmonics. *)
From Verif Require Export MathSpec Fps.
Open Scope C_scope.

Lemma zfact_pos n : (0 < zfact n)%R.
Proof. apply INR_fact_lt_0. Qed.
Lemma zfact_neq0 n : zfact n <> 0%R.
Proof. apply Rgt_not_eq, zfact_pos. Qed.
Lemma zfactC_neq0 n : RtoC (zfact n) <> 0.
Proof. apply RtoC_neq0, zfact_neq0. Qed.
Lemma zfact_0 : zfact 0 = 1%R. Proof. reflexivity. Qed.
Lemma zfact_1 : zfact 1 = 1%R. Proof. reflexivity. Qed.
Lemma zfact_succ n : (0 <= n)%Z -> zfact (n + 1) = (IZR (n + 1) * zfact n)%R.
Proof.
  intros H. unfold zfact. replace (Z.to_nat (n + 1)) with (S (Z.to_nat n)) by lia.
  rewrite fact_simpl, mult_INR. f_equal. rewrite INR_IZR_INZ. f_equal. lia.
Qed.
Lemma zfact_rec n : (1 <= n)%Z -> zfact n = (IZR n * zfact (n - 1))%R.
Proof. intros H. replace n with (n - 1 + 1)%Z at 1 by ring. rewrite zfact_succ by lia. f_equal; f_equal; ring. Qed.

Lemma dp_neg a n : (n < 0)%Z -> dp a n = 0.
Proof. intros H. unfold dp. now replace (n <? 0)%Z with true by (symmetry; apply Z.ltb_lt; lia). Qed.
Lemma dp_0 a : dp a 0 = 1.
Proof. unfold dp. simpl. rewrite zfact_0. field. Qed.
Lemma dp_nonneg a n : (0 <= n)%Z -> dp a n = cpow a (Z.to_nat n) / RtoC (zfact n).
Proof. intros H. unfold dp. now replace (n <? 0)%Z with false by (symmetry; apply Z.ltb_ge; lia). Qed.
Lemma dp_rec a n : RtoC (IZR n) * dp a n = a * dp a (n - 1).
Proof.
  destruct (Z_lt_le_dec n 0) as [H|H].
  - rewrite !dp_neg by lia. ring.
  - destruct (Z.eq_dec n 0) as [->|Hn].
    + rewrite (dp_neg a (0 - 1)) by lia. ring.
    + rewrite !dp_nonneg by lia. rewrite (zfact_rec n), RtoC_mult by lia.
      replace (Z.to_nat n) with (S (Z.to_nat (n - 1))) by lia. cbn [cpow].
      field. split; [apply zfactC_neq0|]. apply RtoC_neq0. apply not_0_IZR. lia.
Qed.
Lemma dp_opp a n : dp (- a) n = sgnC n * dp a n.
Proof.
  destruct (Z_lt_le_dec n 0) as [H|H].
  - rewrite !dp_neg by lia. ring.
  - rewrite !dp_nonneg by lia. rewrite <- (Z2Nat.id n) at 3 by lia. rewrite sgnC_pow.
    replace (- a) with (RtoC (-1) * a) by ring. rewrite cpow_mul. field. apply zfactC_neq0.
Qed.
Lemma dp_scal c a n : (0 <= n)%Z -> dp (c * a) n = cpow c (Z.to_nat n) * dp a n.
Proof. intros. rewrite !dp_nonneg by lia. rewrite cpow_mul. field. apply zfactC_neq0. Qed.
Lemma dp_conj a n : Cconj (dp a n) = dp (Cconj a) n.
Proof.
  unfold dp. destruct (n <? 0)%Z; [apply Cconj_RtoC|].
  now rewrite Cconj_div, Cconj_pow, Cconj_RtoC.
Qed.
Lemma dp_zero n : (n <> 0)%Z -> dp 0 n = 0.
Proof.
  intros. destruct (Z_lt_le_dec n 0) as [H1|H1]; [now apply dp_neg|].
  rewrite dp_nonneg by lia. rewrite cpow_0 by lia. field. apply zfactC_neq0.
Qed.

(* the k-th term *)
Definition trit (l m k : Z) (A z B : C) : C := dp z (l - m - 2 * k) * dp A (m + k) * dp B k.
Lemma trit_supp l m k A z B : (k < 0 \/ m + k < 0 \/ l - m - 2 * k < 0)%Z -> trit l m k A z B = 0.
Proof. unfold trit. intros [H|[H|H]]; rewrite (dp_neg _ _ H); ring. Qed.
Lemma tri_range l m A z B a b : (a <= 0)%Z -> (l < b)%Z -> tri l m A z B = zsum a b (fun k => trit l m k A z B).
Proof.
  intros Ha Hb. unfold tri. apply zsum_supp.
  - intros; lia.
  - intros k H1 H2. apply trit_supp. lia.
Qed.
Lemma tri_zero l m A z B : (l < Z.abs m)%Z -> tri l m A z B = 0.
Proof. intros H. unfold tri. apply zsum_0. intros k Hk. apply trit_supp. lia. Qed.
Lemma tri_neg l m A z B : (l < 0)%Z -> tri l m A z B = 0.
Proof. intros H. apply tri_zero. lia. Qed.
Lemma tri_0_0 A z B : tri 0 0 A z B = 1.
Proof. unfold tri. rewrite zsum_first, zsum_empty by lia. simpl. rewrite !dp_0. ring. Qed.
Lemma tri_0 m A z B : (m <> 0)%Z -> tri 0 m A z B = 0.
Proof. intros; apply tri_zero; lia. Qed.

Lemma tri_rec l m A z B :
  RtoC (IZR l) * tri l m A z B = A * tri (l - 1) (m - 1) A z B + z * tri (l - 1) m A z B + B * tri (l - 1) (m + 1) A z B.
Proof.
  rewrite (tri_range l m A z B (-1) (l + 3)) by lia.
  rewrite (tri_range (l - 1) (m - 1) A z B (-1) (l + 3)) by lia.
  rewrite (tri_range (l - 1) m A z B (-1) (l + 3)) by lia.
  rewrite (tri_range (l - 1) (m + 1) A z B (-2) (l + 2)) by lia.
  rewrite (zsum_shift 1 (-2)).
  change (-2 + 1)%Z with (-1)%Z. replace (l + 2 + 1)%Z with (l + 3)%Z by ring.
  rewrite <- !zsum_scal_l, <- !zsum_plus. apply zsum_ext. intros k Hk. unfold trit.
  replace (RtoC (IZR l)) with (RtoC (IZR (m + k)) + RtoC (IZR (l - m - 2 * k)) + RtoC (IZR k)).
  2:{ rewrite <- !RtoC_plus, <- !plus_IZR. do 2 f_equal. ring. }
  replace (l - 1 - (m - 1) - 2 * k)%Z with (l - m - 2 * k)%Z by ring.
  replace (m - 1 + k)%Z with (m + k - 1)%Z by ring.
  replace (l - 1 - m - 2 * k)%Z with (l - m - 2 * k - 1)%Z by ring.
  replace (l - 1 - (m + 1) - 2 * (k - 1))%Z with (l - m - 2 * k)%Z by ring.
  replace (m + 1 + (k - 1))%Z with (m + k)%Z by ring.
  transitivity (dp z (l - m - 2 * k) * (RtoC (IZR (m + k)) * dp A (m + k)) * dp B k
     + (RtoC (IZR (l - m - 2 * k)) * dp z (l - m - 2 * k)) * dp A (m + k) * dp B k
     + dp z (l - m - 2 * k) * dp A (m + k) * (RtoC (IZR k) * dp B k)); [ring|].
  rewrite !dp_rec. ring.
Qed.

(* three-term recurrence in l at fixed m *)
Lemma tri_rec_l l m A z B :
  RtoC (IZR ((l + m) * (l - m))) * tri l m A z B =
  RtoC (IZR (2 * l - 1)) * z * tri (l - 1) m A z B - (z * z - RtoC 4 * A * B) * tri (l - 2) m A z B.
Proof.
  transitivity (RtoC (IZR (2 * l - 1)) * z * tri (l - 1) m A z B - z * z * tri (l - 2) m A z B
                + RtoC 4 * A * B * tri (l - 2) m A z B); [|ring].
  rewrite (tri_range l m A z B (-1) (l + 3)) by lia.
  rewrite (tri_range (l - 1) m A z B (-1) (l + 3)) by lia.
  rewrite (tri_range (l - 2) m A z B (-1) (l + 3)) at 1 by lia.
  rewrite (tri_range (l - 2) m A z B (-2) (l + 2)) by lia.
  rewrite (zsum_shift 1 (-2)).
  change (-2 + 1)%Z with (-1)%Z. replace (l + 2 + 1)%Z with (l + 3)%Z by ring.
  rewrite <- !zsum_scal_l, <- zsum_minus, <- zsum_plus. apply zsum_ext. intros k Hk. unfold trit.
  replace (l - 1 - m - 2 * k)%Z with (l - m - 2 * k - 1)%Z by ring.
  replace (l - 2 - m - 2 * k)%Z with (l - m - 2 * k - 1 - 1)%Z by ring.
  replace (l - 2 - m - 2 * (k - 1))%Z with (l - m - 2 * k)%Z by ring.
  replace (m + (k - 1))%Z with (m + k - 1)%Z by ring.
  transitivity (RtoC (IZR (2 * l - 1)) * (z * dp z (l - m - 2 * k - 1)) * dp A (m + k) * dp B k
     - z * (z * dp z (l - m - 2 * k - 1 - 1)) * dp A (m + k) * dp B k
     + RtoC 4 * dp z (l - m - 2 * k) * (A * dp A (m + k - 1)) * (B * dp B (k - 1))); [|ring].
  rewrite <- !dp_rec.
  transitivity (RtoC (IZR (2 * l - 1)) * (RtoC (IZR (l - m - 2 * k)) * dp z (l - m - 2 * k)) * dp A (m + k) * dp B k
     - RtoC (IZR (l - m - 2 * k - 1)) * (z * dp z (l - m - 2 * k - 1)) * dp A (m + k) * dp B k
     + RtoC 4 * dp z (l - m - 2 * k) * (RtoC (IZR (m + k)) * dp A (m + k)) * (RtoC (IZR k) * dp B k)); [|ring].
  rewrite <- !dp_rec.
  transitivity ((RtoC (IZR (2 * l - 1)) * RtoC (IZR (l - m - 2 * k))
     - RtoC (IZR (l - m - 2 * k - 1)) * RtoC (IZR (l - m - 2 * k))
     + RtoC 4 * RtoC (IZR (m + k)) * RtoC (IZR k)) * (dp z (l - m - 2 * k) * dp A (m + k) * dp B k)); [|ring].
  f_equal. rewrite <- !RtoC_mult, <- !RtoC_minus, <- !RtoC_plus. f_equal.
  rewrite <- !mult_IZR, <- !minus_IZR, <- !plus_IZR. f_equal. ring.
Qed.

(* top order *)
Lemma tri_top l A z B : (0 <= l)%Z -> tri l l A z B = dp A l.
Proof.
  intros H. unfold tri. rewrite (zsum_single _ _ 0).
  - rewrite !Z.add_0_r. replace (l - l - 2 * 0)%Z with 0%Z by ring. rewrite !dp_0. ring.
  - lia.
  - intros k H1 H2. apply trit_supp. lia.
Qed.

Lemma tri_scal c l m A z B : (0 <= l)%Z -> tri l m (c * A) (c * z) (c * B) = cpow c (Z.to_nat l) * tri l m A z B.
Proof.
  intros Hl. unfold tri. rewrite <- zsum_scal_l. apply zsum_ext. intros k Hk.
  destruct (Z_lt_le_dec (m + k) 0) as [H1|H1]; [rewrite !(dp_neg _ (m + k)) by lia; ring|].
  destruct (Z_lt_le_dec (l - m - 2 * k) 0) as [H2|H2]; [rewrite !(dp_neg _ (l - m - 2 * k)) by lia; ring|].
  rewrite !dp_scal by lia.
  replace (Z.to_nat l) with (Z.to_nat (l - m - 2 * k) + (Z.to_nat (m + k) + Z.to_nat k))%nat by lia.
  rewrite !cpow_add. ring.
Qed.

(* exchange of the roles of A and B reverses m *)
Lemma tri_flip l m A z B : tri l m B z A = tri l (- m) A z B.
Proof.
  rewrite (tri_range l m B z A (- Z.abs m) (Z.abs l + Z.abs m + 1)) by lia.
  rewrite (tri_range l (- m) A z B (- Z.abs m + m) (Z.abs l + Z.abs m + 1 + Z.max m 0)) by lia.
  destruct (Z_lt_le_dec l (Z.abs m)) as [Hl|Hl].
  { rewrite !zsum_0; [reflexivity| |]; intros; apply trit_supp; lia. }
  transitivity (zsum (- Z.abs m + m) (Z.abs l + Z.abs m + 1 + m) (fun k => trit l (- m) k A z B)).
  - rewrite (zsum_shift m). apply zsum_ext. intros k Hk. unfold trit.
    replace (l - m - 2 * (k - m))%Z with (l - - m - 2 * k)%Z by ring.
    replace (m + (k - m))%Z with k by ring. replace (- m + k)%Z with (k - m)%Z by ring. ring.
  - apply zsum_supp; intros k H1 H2; apply trit_supp; lia.
Qed.
Lemma tri_opp_AB l m A z B : tri l m (- A) z (- B) = sgnC m * tri l m A z B.
Proof.
  unfold tri. rewrite <- zsum_scal_l. apply zsum_ext. intros k Hk.
  rewrite !dp_opp, sgnC_add.
  transitivity (sgnC k * sgnC k * sgnC m * (dp z (l - m - 2 * k) * dp A (m + k) * dp B k)); [ring|].
  rewrite sgnC_sq. ring.
Qed.
Lemma tri_conj l m A z B : Cconj (tri l m A z B) = tri l m (Cconj A) (Cconj z) (Cconj B).
Proof. unfold tri. rewrite zsum_conj. apply zsum_ext. intros. now rewrite !Cconj_mult, !dp_conj. Qed.

(* addition theorem *)
Lemma tri_add_wide A z B A' z' B' : forall (n : nat) a b c d L M,
  (L <= Z.of_nat n)%Z -> (a <= 0)%Z -> (0 < b)%Z -> (L < b)%Z ->
  (c <= 0)%Z -> (c <= - L)%Z -> (0 < d)%Z -> (L < d)%Z ->
  tri L M (A + A') (z + z') (B + B') =
  zsum a b (fun l => zsum c d (fun m => tri l m A z B * tri (L - l) (M - m) A' z' B')).
Proof.
  induction n; intros a b c d L M HL Ha Hb0 Hb Hc0 Hc Hd0 Hd.
  - destruct (Z_lt_le_dec L 0) as [Hneg|Hpos].
    + rewrite tri_neg by lia. symmetry. apply zsum_0. intros l _. apply zsum_0. intros m _.
      destruct (Z_lt_le_dec l 0) as [H|H]; [rewrite (tri_neg l) by lia; ring|].
      rewrite (tri_neg (L - l)) by lia. ring.
    + assert (L = 0)%Z by lia. subst L.
      rewrite (zsum_single _ _ 0).
      * rewrite (zsum_single _ _ 0).
        -- rewrite tri_0_0. rewrite Z.sub_0_r. simpl (0 - 0)%Z.
           destruct (Z.eq_dec M 0) as [->|HM]; [rewrite !tri_0_0; ring|rewrite !tri_0 by lia; ring].
        -- lia.
        -- intros k _ Hk. rewrite (tri_0 k) by lia. ring.
      * lia.
      * intros l _ Hl. apply zsum_0. intros m _.
        destruct (Z_lt_le_dec l 0) as [H|H]; [rewrite (tri_neg l) by lia; ring|].
        rewrite (tri_neg (0 - l)) by lia. ring.
  - destruct (Z_le_gt_dec L (Z.of_nat n)) as [H|H]; [now apply IHn|].
    assert (HLn : (L = Z.of_nat n + 1)%Z) by lia.
    assert (HL0 : RtoC (IZR L) <> 0) by (apply RtoC_neq0, not_0_IZR; lia).
    assert (E : forall p q, RtoC (IZR L) * p = RtoC (IZR L) * q -> p = q).
    { intros p q Hpq. replace p with (/ RtoC (IZR L) * (RtoC (IZR L) * p)) by (field; exact HL0).
      rewrite Hpq. field. exact HL0. }
    apply E. clear E. rewrite tri_rec.
    (* split L = l + (L-l) under the sums *)
    transitivity (zsum a b (fun l => zsum c d (fun m =>
        (A * tri (l - 1) (m - 1) A z B + z * tri (l - 1) m A z B + B * tri (l - 1) (m + 1) A z B) * tri (L - l) (M - m) A' z' B'))
      + zsum a b (fun l => zsum c d (fun m => tri l m A z B *
        (A' * tri (L - l - 1) (M - m - 1) A' z' B' + z' * tri (L - l - 1) (M - m) A' z' B' + B' * tri (L - l - 1) (M - m + 1) A' z' B')))).
    2:{ rewrite <- zsum_scal_l, <- zsum_plus. apply zsum_ext. intros l _.
        rewrite <- zsum_scal_l, <- zsum_plus. apply zsum_ext. intros m _.
        rewrite <- !tri_rec. 
        replace (RtoC (IZR L)) with (RtoC (IZR l) + RtoC (IZR (L - l)))
          by (rewrite <- RtoC_plus, <- plus_IZR; do 2 f_equal; ring). ring. }
    (* first group *)
    assert (G1 : forall e, (e = -1 \/ e = 0 \/ e = 1)%Z ->
       tri (L - 1) (M + e) (A + A') (z + z') (B + B') =
       zsum a b (fun l => zsum c d (fun m => tri (l - 1) (m + e) A z B * tri (L - l) (M - m) A' z' B'))).
    { intros e He. rewrite (IHn (a - 1) (b - 1) (c + e) (d + e) (L - 1) (M + e))%Z by lia.
      rewrite (zsum_shift 1 (a - 1)%Z). replace (a - 1 + 1)%Z with a by ring.
      replace (b - 1 + 1)%Z with b by ring. apply zsum_ext. intros l _.
      rewrite (zsum_shift (- e) (c + e)%Z). replace (c + e + - e)%Z with c by ring.
      replace (d + e + - e)%Z with d by ring. apply zsum_ext. intros m _.
      f_equal; f_equal; lia. }
    assert (G2 : forall e,
       tri (L - 1) (M + e) (A + A') (z + z') (B + B') =
       zsum a b (fun l => zsum c d (fun m => tri l m A z B * tri (L - l - 1) (M - m + e) A' z' B'))).
    { intros e. rewrite (IHn a b c d (L - 1) (M + e))%Z by lia.
      apply zsum_ext. intros l _. apply zsum_ext. intros m _. f_equal; f_equal; lia. }
    transitivity ((A + A') * tri (L - 1) (M + -1) (A + A') (z + z') (B + B')
      + (z + z') * tri (L - 1) (M + 0) (A + A') (z + z') (B + B')
      + (B + B') * tri (L - 1) (M + 1) (A + A') (z + z') (B + B')).
    { rewrite Z.add_0_r. reflexivity. }
    transitivity ((A * tri (L - 1) (M + -1) (A + A') (z + z') (B + B')
      + z * tri (L - 1) (M + 0) (A + A') (z + z') (B + B')
      + B * tri (L - 1) (M + 1) (A + A') (z + z') (B + B'))
      + (A' * tri (L - 1) (M + -1) (A + A') (z + z') (B + B')
      + z' * tri (L - 1) (M + 0) (A + A') (z + z') (B + B')
      + B' * tri (L - 1) (M + 1) (A + A') (z + z') (B + B'))); [ring|].
    f_equal.
    + rewrite !G1 by lia. rewrite <- !zsum_scal_l, <- !zsum_plus. apply zsum_ext. intros l _.
      rewrite <- !zsum_scal_l, <- !zsum_plus. apply zsum_ext. intros m _.
      rewrite Z.add_0_r. replace (m + -1)%Z with (m - 1)%Z by ring. ring.
    + rewrite !G2. rewrite <- !zsum_scal_l, <- !zsum_plus. apply zsum_ext. intros l _.
      rewrite <- !zsum_scal_l, <- !zsum_plus. apply zsum_ext. intros m _.
      rewrite Z.add_0_r. replace (M - m + -1)%Z with (M - m - 1)%Z by ring. ring.
Qed.

(* sum over 0<=l<=L, -l<=m<=l *)
Lemma tri_add L M A z B A' z' B' : (0 <= L)%Z ->
  tri L M (A + A') (z + z') (B + B') =
  zsum 0 (L + 1) (fun l => zsum (- l) (l + 1) (fun m => tri l m A z B * tri (L - l) (M - m) A' z' B')).
Proof.
  intros HL. rewrite (tri_add_wide A z B A' z' B' (Z.to_nat L) 0 (L + 1) (- L) (L + 1)) by lia.
  apply zsum_ext. intros l Hl. apply zsum_sub; try lia.
  intros k H1 H2. rewrite (tri_zero l k) by lia. ring.
Qed.
