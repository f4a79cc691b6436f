(* Proofs about Rotations.v *)
From Verif Require Export Rotations Wigner TranslationsProofs.
From Coq Require Import FunctionalExtensionality Psatz.
From Verif Require Import Cplx.
Open Scope C_scope.

(* ---- the Wigner d-matrix ---- *)
Definition gg (l m : Z) : R := sqrt (zfact (l + m) * zfact (l - m)).
Lemma gg_pos l m : (0 < gg l m)%R.
Proof. apply sqrt_lt_R0. apply Rmult_lt_0_compat; apply zfact_pos. Qed.
Lemma ggC_neq0 l m : RtoC (gg l m) <> 0.
Proof. apply RtoC_neq0. assert (H := gg_pos l m). lra. Qed.
Lemma gg_sq l m : (gg l m * gg l m = zfact (l + m) * zfact (l - m))%R.
Proof. unfold gg. apply sqrt_sqrt. apply Rlt_le, Rmult_lt_0_compat; apply zfact_pos. Qed.
Lemma gg_opp l m : gg l (- m) = gg l m.
Proof. unfold gg. f_equal. replace (l + - m)%Z with (l - m)%Z by ring. replace (l - - m)%Z with (l + m)%Z by ring. ring. Qed.
Lemma nrm_gg l m : (0 <= l)%Z -> nrm l m = (sqrt ((2 * IZR l + 1) / (4 * PI)) * gg l m)%R.
Proof.
  intros Hl. unfold nrm, gg. assert (Hp := PI_RGT_0). assert (H0 : (0 <= IZR l)%R) by (now apply IZR_le).
  rewrite <- sqrt_mult_alt by (apply Rlt_le; posr). f_equal. field. lra.
Qed.
Definition dW (c s : C) (l n m : Z) : C := RtoC (gg l n * gg l m) * V c s l n m.
Lemma dW_W c s l n m : (Z.abs m <= l)%Z -> dW c s l n m = RtoC (gg l n / gg l m) * W c s l n m.
Proof.
  intros H. rewrite W_V by assumption. unfold dW. rewrite <- gg_sq. 
  rewrite RtoC_div by (apply Rgt_not_eq, gg_pos). rewrite !RtoC_mult. field. apply ggC_neq0.
Qed.
Lemma W_dW c s l n m : (Z.abs m <= l)%Z -> W c s l n m = RtoC (gg l m / gg l n) * dW c s l n m.
Proof.
  intros H. rewrite W_V by assumption. unfold dW. rewrite <- gg_sq.
  rewrite RtoC_div by (apply Rgt_not_eq, gg_pos). rewrite !RtoC_mult. field. apply ggC_neq0.
Qed.
Lemma dW_comp c1 s1 c2 s2 l n m : (Z.abs m <= l)%Z ->
  zsum (- l) (l + 1) (fun k => dW c2 s2 l n k * dW c1 s1 l k m) = dW (c1 * c2 - s1 * s2) (c1 * s2 + s1 * c2) l n m.
Proof.
  intros H. rewrite (dW_W _ _ l n m) by assumption. rewrite <- W_comp, <- zsum_scal_l by assumption. apply zsum_ext. intros k Hk.
  rewrite !dW_W by lia. assert (H1 := gg_pos l n). assert (H2 := gg_pos l k). assert (H3 := gg_pos l m).
  replace (RtoC (gg l n / gg l m)) with (RtoC (gg l n / gg l k) * RtoC (gg l k / gg l m)); [ring|].
  rewrite <- RtoC_mult. f_equal. field. lra.
Qed.
Lemma dW_transp c s l n m : dW c s l n m = dW c (- s) l m n.
Proof. unfold dW. rewrite V_transp. now rewrite (Rmult_comm (gg l n)). Qed.
Lemma dW_opp_s c s l n m : dW c (- s) l n m = sgnC (n - m) * dW c s l n m.
Proof. unfold dW. rewrite V_opp_s. ring. Qed.
Lemma dW_opp_c c s l n m : dW (- c) s l n m = sgnC (n - m) * dW c s l n m.
Proof. unfold dW. rewrite V_opp_c. ring. Qed.
Lemma dW_opp_both c s l n m : dW (- c) (- s) l n m = dW c s l n m.
Proof. unfold dW. now rewrite V_opp_both. Qed.
Lemma dW_neg c s l n m : dW c s l (- n) (- m) = sgnC (n - m) * dW c s l n m.
Proof. unfold dW. rewrite V_neg, !gg_opp. ring. Qed.
Lemma dW_flip c s l n m : dW c s l (- m) (- n) = dW c s l n m.
Proof. unfold dW. rewrite V_flip, !gg_opp. now rewrite (Rmult_comm (gg l n)). Qed.
Lemma dW_zero c s l n m : (l < Z.abs n \/ l < Z.abs m)%Z -> dW c s l n m = 0.
Proof. intros. unfold dW. rewrite V_zero by assumption. ring. Qed.
Lemma dW_id l n m : (Z.abs m <= l)%Z -> dW 1 0 l n m = if (n =? m)%Z then 1 else 0.
Proof.
  intros H. unfold dW. rewrite V_id by assumption. destruct (Z.eqb_spec n m) as [->|]; [|ring].
  rewrite gg_sq. field. rewrite RtoC_mult. apply Cmult_neq_0; apply zfactC_neq0.
Qed.
Lemma dW_real (c s : R) l n m : Cconj (dW (RtoC c) (RtoC s) l n m) = dW (RtoC c) (RtoC s) l n m.
Proof. unfold dW. now rewrite Cconj_mult, V_conj, !Cconj_RtoC. Qed.
Lemma dW_0 c s : dW c s 0 0 0 = 1.
Proof.
  unfold dW, V, G, gg. simpl (0 + 0)%Z. simpl (0 - 0)%Z. rewrite zsum_first, zsum_empty by lia. unfold Gt. simpl (0 - 0 + 0)%Z. simpl (0 - 0)%Z.
  rewrite !dp_0. change (zfact 0) with 1%R. rewrite Rmult_1_l, sqrt_1, Rmult_1_l. ring.
Qed.

(* angles *)
Definition dB (b : R) (l n m : Z) : C := dW (RtoC (cos (b / 2))) (RtoC (sin (b / 2))) l n m.
Lemma dB_add a b l n m : (Z.abs m <= l)%Z ->
  zsum (- l) (l + 1) (fun k => dB b l n k * dB a l k m) = dB (a + b) l n m.
Proof.
  intros H. unfold dB. rewrite dW_comp by assumption. f_equal.
  - rewrite <- !RtoC_mult, <- RtoC_minus. f_equal. replace ((a + b) / 2)%R with (a / 2 + b / 2)%R by field. now rewrite cos_plus.
  - rewrite <- !RtoC_mult, <- RtoC_plus. f_equal. replace ((a + b) / 2)%R with (a / 2 + b / 2)%R by field. rewrite sin_plus. ring.
Qed.
Lemma dB_0 l n m : (Z.abs m <= l)%Z -> dB 0 l n m = if (n =? m)%Z then 1 else 0.
Proof. intros. unfold dB. replace (0 / 2)%R with 0%R by field. rewrite cos_0, sin_0. now apply dW_id. Qed.
Lemma dB_opp b l n m : dB (- b) l n m = dB b l m n.
Proof.
  unfold dB. replace (- b / 2)%R with (- (b / 2))%R by field. rewrite cos_neg, sin_neg. rewrite (RtoC_opp (sin (b / 2))).
  rewrite dW_transp. f_equal. ring.
Qed.
Lemma dB_opp_sgn b l n m : dB (- b) l n m = sgnC (n - m) * dB b l n m.
Proof.
  unfold dB. replace (- b / 2)%R with (- (b / 2))%R by field. rewrite cos_neg, sin_neg. rewrite (RtoC_opp (sin (b / 2))).
  apply dW_opp_s.
Qed.
Lemma dB_conj b l n m : Cconj (dB b l n m) = dB b l n m.
Proof. apply dW_real. Qed.
Lemma dB_2PI b l n m : dB (b + 2 * PI) l n m = dB b l n m.
Proof.
  unfold dB. replace ((b + 2 * PI) / 2)%R with (b / 2 + PI)%R by field. rewrite neg_cos, neg_sin.
  rewrite (RtoC_opp (cos _)), (RtoC_opp (sin _)). apply dW_opp_both.
Qed.
Lemma dB_2kPI b k l n m : dB (b + 2 * PI * IZR k) l n m = dB b l n m.
Proof.
  assert (H : forall (j : nat) b, dB (b + 2 * PI * INR j) l n m = dB b l n m).
  { induction j; intros b'.
    - simpl. f_equal. ring.
    - rewrite S_INR. replace (b' + 2 * PI * (INR j + 1))%R with (b' + 2 * PI * INR j + 2 * PI)%R by ring. now rewrite dB_2PI. }
  destruct (Z_le_gt_dec 0 k).
  - rewrite <- (Z2Nat.id k) by lia. rewrite <- INR_IZR_INZ. apply H.
  - rewrite <- (H (Z.to_nat (- k)) (b + 2 * PI * IZR k)%R). rewrite INR_IZR_INZ, Z2Nat.id, opp_IZR by lia. f_equal. ring.
Qed.
Lemma dB_zero b l n m : (l < Z.abs n \/ l < Z.abs m)%Z -> dB b l n m = 0.
Proof. apply dW_zero. Qed.

(* the full matrix *)
Definition DD (a b g : R) (l n m : Z) : C := cexpi (- (a * IZR n + g * IZR m)) * dB b l n m.
Lemma cexpi_split a g n m : cexpi (- (a * IZR n + g * IZR m)) = cexpi (- (IZR n * a)) * cexpi (- (IZR m * g)).
Proof. rewrite <- cexpi_plus. f_equal. ring. Qed.

(* ---- explicit formula ---- *)
Lemma sgnR_C k : RtoC (sgnR k) = sgnC k.
Proof. unfold sgnR, sgnC. now destruct (Z.even k). Qed.
Lemma Dlmn_DD l m n a b g : (Z.abs m <= l)%Z -> (Z.abs n <= l)%Z -> Dlmn l m n a b g = DD a b g l n m.
Proof.
  intros Hm Hn. unfold Dlmn, DD, dB, dW. set (c := cos (b / 2)). set (s := sin (b / 2)).
  rewrite (V_any _ _ l n m 0 (l + m + 1)) by lia.
  transitivity (zsum (Z.max (m - n) 0) (Z.min (l + m) (l - n) + 1) (Vt (RtoC c) (RtoC s) l n m) * sgnC (n - m)
     * (cexpi (- (a * IZR n + g * IZR m)) * sgnC (n - m)) * RtoC (gg l m) * RtoC (gg l n)).
  - unfold gg. rewrite !(Rmult_comm (zfact (l - _))). f_equal. f_equal. f_equal. rewrite <- zsum_scal_r.
    apply zsum_ext. intros k Hk. unfold Vt. rewrite dp_opp, !dp_nonneg by lia. rewrite !cpow_RtoC.
    replace (Z.to_nat (2 * l + m - n - 2 * k)) with (Z.to_nat (l + m - k) + Z.to_nat (l - n - k))%nat by lia.
    replace (Z.to_nat (n - m + 2 * k)) with (Z.to_nat (n - m + k) + Z.to_nat k)%nat by lia. rewrite !pow_add.
    assert (H1 := zfact_neq0 k). assert (H2 := zfact_neq0 (l + m - k)). assert (H3 := zfact_neq0 (l - n - k)). assert (H4 := zfact_neq0 (n - m + k)).
    rewrite sgnC_add.
    transitivity (sgnC (n - m) * sgnC (n - m) * RtoC (sgnR k * (c ^ Z.to_nat (l + m - k) * c ^ Z.to_nat (l - n - k)) * (s ^ Z.to_nat (n - m + k) * s ^ Z.to_nat k) / (zfact k * zfact (l + m - k)) / (zfact (l - n - k) * zfact (n - m + k)))).
    { rewrite sgnC_sq. ring. }
    set (x1 := (c ^ Z.to_nat (l + m - k))%R). set (x2 := (c ^ Z.to_nat (l - n - k))%R). set (x3 := (s ^ Z.to_nat (n - m + k))%R). set (x4 := (s ^ Z.to_nat k)%R).
    clearbody x1 x2 x3 x4.
    rewrite (RtoC_div _ (zfact (l - n - k) * zfact (n - m + k))) by (apply Rmult_integral_contrapositive; now split).
    rewrite (RtoC_div _ (zfact k * zfact (l + m - k))) by (apply Rmult_integral_contrapositive; now split).
    rewrite !RtoC_mult, sgnR_C. field. repeat split; apply zfactC_neq0.
  - rewrite (zsum_supp 0 (l + m + 1) (Z.max (m - n) 0) (Z.min (l + m) (l - n) + 1)).
    2,3: intros; apply Vt_supp; lia.
    set (S0 := zsum _ _ _). rewrite RtoC_mult.
    transitivity (sgnC (n - m) * sgnC (n - m) * (S0 * cexpi (- (a * IZR n + g * IZR m)) * RtoC (gg l m) * RtoC (gg l n))); [ring|].
    rewrite sgnC_sq. ring.
Qed.
Lemma setrow_in M i a b f x y : x = i -> (a <= y < b)%Z -> setrow M i a b f x y = f y.
Proof. intros -> H. unfold setrow. now rewrite Z.eqb_refl, (proj2 (Z.leb_le a y)), (proj2 (Z.ltb_lt y b)) by lia. Qed.
Lemma setrow_out M i a b f x y : (x <> i \/ ~ (a <= y < b))%Z -> setrow M i a b f x y = M x y.
Proof. intros H. unfold setrow. destruct (Z.eqb_spec x i), (Z.leb_spec a y), (Z.ltb_spec y b); try lia; reflexivity. Qed.
Lemma Dl_entry l a b g i j : (0 <= i < 2 * l + 1)%Z -> (0 <= j < 2 * l + 1)%Z ->
  Dl l a b g i j = Dlmn l (- l + j) (- l + i) a b g.
Proof.
  intros Hi Hj. unfold Dl. set (N := (2 * l + 1)%Z) in *.
  set (step := fun m M => zfor 0 N (fun n M => setrow M n m (m + 1) (fun _ => Dlmn l (- l + m) (- l + n) a b g)) M).
  assert (Hrow : forall m M i j, (0 <= i < N)%Z -> step m M i j = if (j =? m)%Z then Dlmn l (- l + m) (- l + i) a b g else M i j).
  { intros m M i' j' Hi'. unfold step.
    assert (G := zfor_ind (fun k (M' : cmat) => forall i j, (0 <= i < N)%Z -> M' i j = if ((i <? k) && (j =? m))%bool%Z then Dlmn l (- l + m) (- l + i) a b g else M i j) 0 N
       (fun n M => setrow M n m (m + 1) (fun _ => Dlmn l (- l + m) (- l + n) a b g)) M ltac:(lia)).
    cbv beta in G. rewrite G; [|intros; now rewrite (proj2 (Z.ltb_ge _ 0)) by lia| |assumption].
    - now rewrite (proj2 (Z.ltb_lt i' N)) by lia.
    - intros k t Hk IH x y Hx. unfold setrow.
      destruct (Z.eqb_spec x k) as [->|Hxk].
      + rewrite (proj2 (Z.ltb_lt k (k + 1))) by lia. destruct (Z.eqb_spec y m) as [->|Hy].
        * rewrite Z.leb_refl, (proj2 (Z.ltb_lt m (m + 1))) by lia. reflexivity.
        * destruct (Z.leb_spec m y), (Z.ltb_spec y (m + 1)); try lia; cbn [andb]; rewrite IH by lia; rewrite (proj2 (Z.ltb_ge k k)) by lia; reflexivity.
      + cbn [andb]. rewrite IH by assumption. destruct (Z.ltb_spec x k), (Z.ltb_spec x (k + 1)); try lia; reflexivity. }
  assert (G := zfor_ind (fun k (M' : cmat) => forall i j, (0 <= i < N)%Z -> (0 <= j < N)%Z -> M' i j = if (j <? k)%Z then Dlmn l (- l + j) (- l + i) a b g else 0) 0 N step (fun _ _ => 0) ltac:(lia)).
  cbv beta in G. rewrite G; [now rewrite (proj2 (Z.ltb_lt j N)) by lia| | |assumption|assumption].
  - intros. now rewrite (proj2 (Z.ltb_ge _ 0)) by lia.
  - intros k t Hk IH x y Hx Hy. rewrite Hrow by assumption. destruct (Z.eqb_spec y k) as [->|].
    + now rewrite (proj2 (Z.ltb_lt k (k + 1))) by lia.
    + rewrite IH by assumption. destruct (Z.ltb_spec y k), (Z.ltb_spec y (k + 1)); try lia; reflexivity.
Qed.

(* ---- the ladder recursion for d and H ---- *)
Definition ee (l m : Z) : R := sqrt (IZR ((l - m) * (l + m + 1))).
Lemma ee_gg_up l n : (Z.abs n <= l)%Z -> (n < l)%Z -> (ee l n * gg l (n + 1) = IZR (l + n + 1) * gg l n)%R.
Proof.
  intros H1 H2. unfold ee, gg. replace (l - (n + 1))%Z with (l - n - 1)%Z by ring. replace (l + (n + 1))%Z with (l + n + 1)%Z by ring.
  rewrite (zfact_succ (l + n)), (zfact_rec (l - n)) by lia.
  assert (Ha : (0 <= IZR (l + n + 1))%R) by (apply IZR_le; lia). assert (Hb : (0 <= IZR (l - n))%R) by (apply IZR_le; lia).
  rewrite <- (sqrt_square (IZR (l + n + 1))) at 2 by assumption.
  assert (Hf := zfact_pos (l + n)). assert (Hf' := zfact_pos (l - n - 1)).
  rewrite mult_IZR. rewrite <- !sqrt_mult_alt by nra. f_equal. ring.
Qed.
Lemma ee_gg_dn l n : (Z.abs n <= l)%Z -> (- l < n)%Z -> (ee l (n - 1) * gg l (n - 1) = IZR (l - n + 1) * gg l n)%R.
Proof.
  intros H1 H2. unfold ee, gg. replace (l - (n - 1))%Z with (l - n + 1)%Z by ring. replace (l + (n - 1) + 1)%Z with (l + n)%Z by ring.
  replace (l + (n - 1))%Z with (l + n - 1)%Z by ring.
  rewrite (zfact_succ (l - n)), (zfact_rec (l + n)) by lia.
  assert (Ha : (0 <= IZR (l - n + 1))%R) by (apply IZR_le; lia). assert (Hb : (0 <= IZR (l + n))%R) by (apply IZR_le; lia).
  rewrite <- (sqrt_square (IZR (l - n + 1))) at 2 by assumption.
  assert (Hf := zfact_pos (l + n - 1)). assert (Hf' := zfact_pos (l - n)).
  rewrite mult_IZR. rewrite <- !sqrt_mult_alt by nra. f_equal. ring.
Qed.
Lemma d_ladder c s l n m : (Z.abs n <= l)%Z -> (Z.abs m <= l)%Z ->
  RtoC (ee l (n - 1)) * dW c s l (n - 1) m - RtoC (ee l n) * dW c s l (n + 1) m
  = - RtoC (ee l (m - 1)) * dW c s l n (m - 1) + RtoC (ee l m) * dW c s l n (m + 1).
Proof.
  intros Hn Hm. assert (E := V_ladder c s l n m Hm). unfold dW.
  assert (U : forall k, (Z.abs k <= l)%Z -> forall v w : C, ((k + 1 <= l)%Z \/ w = 0) -> RtoC (ee l k) * (RtoC (gg l (k + 1)) * v * w) = RtoC (IZR (l + k + 1)) * (RtoC (gg l k) * v * w)).
  { intros k Hk v w [H| ->]; [|ring]. assert (X := ee_gg_up l k Hk ltac:(lia)).
    transitivity (RtoC (ee l k * gg l (k + 1)) * v * w); [rewrite RtoC_mult; ring|]. rewrite X, RtoC_mult. ring. }
  assert (D : forall k, (Z.abs k <= l)%Z -> forall v w : C, ((- l <= k - 1)%Z \/ w = 0) -> RtoC (ee l (k - 1)) * (RtoC (gg l (k - 1)) * v * w) = RtoC (IZR (l - k + 1)) * (RtoC (gg l k) * v * w)).
  { intros k Hk v w [H| ->]; [|ring]. assert (X := ee_gg_dn l k Hk ltac:(lia)).
    transitivity (RtoC (ee l (k - 1) * gg l (k - 1)) * v * w); [rewrite RtoC_mult; ring|]. rewrite X, RtoC_mult. ring. }
  assert (Zl : forall k, (Z.abs k <= l)%Z -> (k + 1 <= l)%Z \/ (l < Z.abs (k + 1))%Z) by lia.
  assert (Zd : forall k, (Z.abs k <= l)%Z -> (- l <= k - 1)%Z \/ (l < Z.abs (k - 1))%Z) by lia.
  transitivity (RtoC (ee l (n - 1)) * (RtoC (gg l (n - 1)) * RtoC (gg l m) * V c s l (n - 1) m) - RtoC (ee l n) * (RtoC (gg l (n + 1)) * RtoC (gg l m) * V c s l (n + 1) m)).
  { rewrite !RtoC_mult. ring. }
  rewrite D; [rewrite U| |]; try assumption.
  2:{ destruct (Zl n Hn); [now left|right; apply V_zero; lia]. }
  2:{ destruct (Zd n Hn); [now left|right; apply V_zero; lia]. }
  transitivity (- (RtoC (ee l (m - 1)) * (RtoC (gg l (m - 1)) * RtoC (gg l n) * V c s l n (m - 1))) + RtoC (ee l m) * (RtoC (gg l (m + 1)) * RtoC (gg l n) * V c s l n (m + 1))).
  2:{ rewrite !RtoC_mult. ring. }
  rewrite D; [rewrite U| |]; try assumption.
  2:{ destruct (Zl m Hm); [now left|right; apply V_zero; lia]. }
  2:{ destruct (Zd m Hm); [now left|right; apply V_zero; lia]. }
  transitivity (RtoC (gg l n) * RtoC (gg l m) * (RtoC (IZR (l - n + 1)) * V c s l (n - 1) m - RtoC (IZR (l + n + 1)) * V c s l (n + 1) m)); [ring|].
  rewrite E. ring.
Qed.
Lemma epsm_succ m : epsm (m + 1) = - (RtoC (rsign m) * epsm m).
Proof.
  unfold epsm, rsign. destruct (Z.ltb_spec (-1) (m + 1)), (Z.ltb_spec (-1) m), (Z.ltb_spec m 0); try lia.
  - rewrite sgnC_succ. ring.
  - replace m with (-1)%Z by lia. simpl. unfold sgnC. simpl. ring.
  - ring.
Qed.
Lemma rsign_sq m : RtoC (rsign m) * RtoC (rsign m) = 1.
Proof. unfold rsign. destruct (m <? 0)%Z; ring. Qed.
Lemma rsign_opp m : rsign (- m) = (- rsign (m - 1))%R.
Proof. unfold rsign. destruct (Z.ltb_spec (- m) 0), (Z.ltb_spec (m - 1) 0); try lia; lra. Qed.
Definition HT (b : R) (l n m : Z) : C := epsm n * epsm (- m) * dB b l n m.
Lemma H_rec b l n m : (Z.abs n <= l)%Z -> (Z.abs m <= l)%Z ->
  RtoC (dnm l (n - 1)) * HT b l (n - 1) m - RtoC (dnm l n) * HT b l (n + 1) m
  = RtoC (dnm l (m - 1)) * HT b l n (m - 1) - RtoC (dnm l m) * HT b l n (m + 1).
Proof.
  intros Hn Hm. assert (E := d_ladder (RtoC (cos (b / 2))) (RtoC (sin (b / 2))) l n m Hn Hm). fold (dB b l (n - 1) m) (dB b l (n + 1) m) (dB b l n (m - 1)) (dB b l n (m + 1)) in E.
  unfold HT. unfold dnm. fold (ee l (n - 1)) (ee l n) (ee l (m - 1)) (ee l m).
  assert (R1 : forall k, RtoC (rsign k * ee l k / 2) = RtoC (rsign k) * RtoC (ee l k) / RtoC 2) by (intros; rewrite RtoC_div, RtoC_mult by lra; reflexivity).
  rewrite !R1.
  assert (E1 : RtoC (rsign (n - 1)) * epsm (n - 1) = - epsm n).
  { assert (X := epsm_succ (n - 1)). replace (n - 1 + 1)%Z with n in X by ring. rewrite X. ring. }
  assert (E2 : RtoC (rsign n) * epsm (n + 1) = - epsm n).
  { rewrite epsm_succ. transitivity (- (RtoC (rsign n) * RtoC (rsign n)) * epsm n); [ring|]. rewrite rsign_sq. ring. }
  assert (E3 : RtoC (rsign (m - 1)) * epsm (- (m - 1)) = epsm (- m)).
  { replace (- (m - 1))%Z with (- m + 1)%Z by ring. rewrite epsm_succ, rsign_opp. rewrite (RtoC_opp (rsign (m - 1))).
    transitivity (RtoC (rsign (m - 1)) * RtoC (rsign (m - 1)) * epsm (- m)); [ring|]. rewrite rsign_sq. ring. }
  assert (E4 : RtoC (rsign m) * epsm (- (m + 1)) = epsm (- m)).
  { assert (X := epsm_succ (- (m + 1))). replace (- (m + 1) + 1)%Z with (- m)%Z in X by ring. rewrite X, rsign_opp.
    replace (m + 1 - 1)%Z with m by ring. rewrite (RtoC_opp (rsign m)). ring. }
  transitivity ((RtoC (rsign (n - 1)) * epsm (n - 1)) * epsm (- m) * RtoC (ee l (n - 1)) * dB b l (n - 1) m / RtoC 2
     - (RtoC (rsign n) * epsm (n + 1)) * epsm (- m) * RtoC (ee l n) * dB b l (n + 1) m / RtoC 2); [field|].
  rewrite E1, E2.
  transitivity (- epsm n * epsm (- m) / RtoC 2 * (RtoC (ee l (n - 1)) * dB b l (n - 1) m - RtoC (ee l n) * dB b l (n + 1) m)); [field|].
  rewrite E.
  transitivity (epsm n * (RtoC (rsign (m - 1)) * epsm (- (m - 1))) * RtoC (ee l (m - 1)) * dB b l n (m - 1) / RtoC 2
     - epsm n * (RtoC (rsign m) * epsm (- (m + 1))) * RtoC (ee l m) * dB b l n (m + 1) / RtoC 2); [rewrite E3, E4; field|field].
Qed.
Lemma dnm_top l : RtoC (dnm l l) = 0.
Proof. unfold dnm. rewrite Z.sub_diag, Z.mul_0_l, sqrt_0. f_equal. field. Qed.
Lemma dnm_neq0 l m : (- l - 1 < m < l)%Z -> RtoC (dnm l m) <> 0.
Proof.
  intros H. apply RtoC_neq0. unfold dnm. assert (Hs : (0 < sqrt (IZR ((l - m) * (l + m + 1))))%R).
  { apply sqrt_lt_R0. apply IZR_lt. nia. }
  unfold rsign. destruct (m <? 0)%Z; intros E; lra.
Qed.
Lemma epsm_sgn m : epsm m * sgnC m = epsm (- m).
Proof.
  unfold epsm. destruct (Z.ltb_spec (-1) m), (Z.ltb_spec (-1) (- m)); try lia.
  - replace m with 0%Z by lia. unfold sgnC. simpl. ring.
  - apply sgnC_sq.
  - rewrite sgnC_opp. ring.
Qed.
Lemma epsm_sq m : epsm m * epsm m = 1.
Proof. unfold epsm. destruct (-1 <? m)%Z; [apply sgnC_sq|ring]. Qed.
Lemma HT_symm b l n m : HT b l m n = HT b l n m.
Proof.
  unfold HT. assert (E : dB b l m n = sgnC m * sgnC n * dB b l n m).
  { unfold dB. rewrite dW_transp, dW_opp_s, sgnC_sub. ring. }
  rewrite E. transitivity ((epsm m * sgnC m) * (epsm (- n) * sgnC (- n)) * dB b l n m); [rewrite (sgnC_opp n); ring|].
  rewrite !epsm_sgn. replace (- - n)%Z with n by ring. ring.
Qed.
Lemma HT_anti b l n m : HT b l (- m) (- n) = HT b l n m.
Proof. unfold HT. replace (- - n)%Z with n by ring. unfold dB. rewrite dW_flip. ring. Qed.

(* base row *)
Lemma half_cs b : let c := RtoC (cos (b / 2)) in let s := RtoC (sin (b / 2)) in
  c * c - s * s = RtoC (cos b) /\ c * s = RtoC (sin b / 2) /\ c * c + s * s = 1 /\
  s * s = RtoC ((1 - cos b) / 2) /\ c * c = RtoC ((1 + cos b) / 2).
Proof.
  cbv zeta. assert (E := cos_2a (b / 2)). assert (F := sin_2a (b / 2)). replace (2 * (b / 2))%R with b in * by field.
  assert (G := sin2_cos2 (b / 2)). unfold Rsqr in G.
  repeat split; rewrite <- ?RtoC_mult, <- ?RtoC_minus, <- ?RtoC_plus; f_equal; lra.
Qed.
Lemma HT_row0 b k m : (0 <= b <= PI)%R -> (0 <= m <= k)%Z ->
  HT b k 0 m = sgnC m * RtoC (sqrt (rfac (k - m) (k + m)) * Plm k m (cos b)).
Proof.
  intros Hb Hm. rewrite HT_symm. unfold HT. 
  assert (E : epsm m * epsm (- 0) = sgnC m).
  { unfold epsm. rewrite (proj2 (Z.ltb_lt (-1) m)) by lia. simpl. unfold sgnC at 2. simpl. ring. }
  rewrite E. f_equal. unfold dB. rewrite dW_W by lia. rewrite W_mid by lia.
  destruct (half_cs b) as (H1 & H2 & H3 & _). cbv zeta in *.
  rewrite H1. rewrite (Cmult_comm (RtoC (sin (b / 2))) (RtoC (cos (b / 2)))), H2.
  replace (- RtoC (sin b / 2)) with (RtoC (- sin b / 2)) by (rewrite <- RtoC_opp; f_equal; field).
  fold (triU k m (sin b) (cos b)).
  rewrite triU_Plm; [|rewrite <- (sin2_cos2 b); unfold Rsqr; ring|apply sin_ge_0; lra|lia].
  rewrite <- !RtoC_mult. f_equal. unfold rfac, Rminus. rewrite exp_plus, exp_Ropp, !exp_gl.
  assert (Hf := zfact_pos (k + m)). assert (Hf' := zfact_pos (k - m)). assert (Hk := zfact_pos k).
  assert (E0 : gg k 0 = zfact k). { unfold gg. rewrite Z.add_0_r, Z.sub_0_r. apply sqrt_square. lra. }
  rewrite E0.
  assert (E1 : (gg k m = zfact (k + m) * sqrt (zfact (k - m) * / zfact (k + m)))%R).
  { unfold gg. rewrite <- (sqrt_square (zfact (k + m))) at 2 by lra. rewrite <- sqrt_mult_alt by nra. f_equal. field. lra. }
  rewrite E1. field. lra.
Qed.
(* step 3 *)
Lemma HT_step3 b n m : (1 <= m <= n)%Z -> 
  HT b n 1 m = (RtoC (bnm (n + 1) (- m - 1) * (1 - cos b) / 2) * HT b (n + 1) 0 (m + 1)
       - RtoC (bnm (n + 1) (m - 1) * (1 + cos b) / 2) * HT b (n + 1) 0 (m - 1)
       - RtoC (anm n m * sin b) * HT b (n + 1) 0 m) / RtoC (bnm (n + 1) 0).
Proof.
  intros Hm. destruct (half_cs b) as (H1 & H2 & H3 & H4 & H5). cbv zeta in *. set (c := RtoC (cos (b / 2))) in *. set (s := RtoC (sin (b / 2))) in *.
  assert (E := W_step c s n 1 m H3 ltac:(lia)). change (1 - 1)%Z with 0%Z in E.
  assert (P1 : (0 < IZR n)%R) by (apply IZR_lt; lia).
  assert (K0 : (0 < IZR ((2 * (n + 1) + 1) * (2 * (n + 1) - 1)))%R) by (apply IZR_lt; nia).
  set (K := IZR ((2 * (n + 1) + 1) * (2 * (n + 1) - 1))) in *.
  assert (B0 : bnm (n + 1) 0 = (sqrt (IZR (n * (n + 1))) / sqrt K)%R).
  { unfold bnm. fold K. simpl rsign. rewrite Rmult_1_l, sqrt_div_alt by assumption. do 3 f_equal. ring. }
  assert (BM : bnm (n + 1) (- m - 1) = (- (sqrt (IZR ((n + m + 1) * (n + m + 2))) / sqrt K))%R).
  { unfold bnm. fold K. unfold rsign. rewrite (proj2 (Z.ltb_lt (- m - 1) 0)) by lia. rewrite sqrt_div_alt by assumption.
    replace ((n + 1 - (- m - 1) - 1) * (n + 1 - (- m - 1)))%Z with ((n + m + 1) * (n + m + 2))%Z by ring. lra. }
  assert (BP : bnm (n + 1) (m - 1) = (sqrt (IZR ((n - m + 1) * (n - m + 2))) / sqrt K)%R).
  { unfold bnm. fold K. unfold rsign. rewrite (proj2 (Z.ltb_ge (m - 1) 0)) by lia. rewrite sqrt_div_alt by assumption.
    replace ((n + 1 - (m - 1) - 1) * (n + 1 - (m - 1)))%Z with ((n - m + 1) * (n - m + 2))%Z by ring. lra. }
  assert (A0 : anm n m = (sqrt (IZR ((n + 1 + m) * (n + 1 - m))) / sqrt K)%R).
  { unfold anm. rewrite <- sqrt_div_alt by assumption. do 2 f_equal. unfold K. rewrite mult_IZR, plus_IZR, minus_IZR, !mult_IZR, !plus_IZR. ring. }
  rewrite B0, BM, BP, A0. clear B0 BM BP A0.
  assert (SK : (0 < sqrt K)%R) by now apply sqrt_lt_R0.
  assert (S0 : (0 < sqrt (IZR (n * (n + 1))))%R) by (apply sqrt_lt_R0, IZR_lt; nia).
  set (k0 := sqrt (IZR (n * (n + 1)))) in *. set (k1 := sqrt (IZR ((n + m + 1) * (n + m + 2)))). set (k2 := sqrt (IZR ((n - m + 1) * (n - m + 2)))).
  set (k3 := sqrt (IZR ((n + 1 + m) * (n + 1 - m)))).
  (* normalisations *)
  assert (G0 : (gg (n + 1) 0 = zfact (n + 1))%R).
  { unfold gg. rewrite Z.add_0_r, Z.sub_0_r. apply sqrt_square. apply Rlt_le, zfact_pos. }
  assert (G1 : (k0 * gg n 1 = zfact (n + 1))%R).
  { unfold k0, gg. rewrite <- sqrt_mult_alt by (apply IZR_le; nia). rewrite <- (sqrt_square (zfact (n + 1))) at 2 by (apply Rlt_le, zfact_pos).
    f_equal. rewrite (zfact_succ n), (zfact_rec n), mult_IZR by lia. ring. }
  assert (GM1 : (gg (n + 1) (m + 1) = k1 * gg n m)%R).
  { unfold k1, gg. rewrite <- sqrt_mult_alt by (apply IZR_le; nia). f_equal. replace (n + 1 + (m + 1))%Z with (n + m + 1 + 1)%Z by ring.
    rewrite (zfact_succ (n + m + 1)), (zfact_succ (n + m)), mult_IZR by lia. replace (n + 1 - (m + 1))%Z with (n - m)%Z by ring.
    replace (n + m + 2)%Z with (n + m + 1 + 1)%Z by ring. ring. }
  assert (GM2 : (gg (n + 1) (m - 1) = k2 * gg n m)%R).
  { unfold k2, gg. rewrite <- sqrt_mult_alt by (apply IZR_le; nia). f_equal. replace (n + 1 - (m - 1))%Z with (n - m + 1 + 1)%Z by ring.
    rewrite (zfact_succ (n - m + 1)), (zfact_succ (n - m)), mult_IZR by lia. replace (n + 1 + (m - 1))%Z with (n + m)%Z by ring.
    replace (n - m + 2)%Z with (n - m + 1 + 1)%Z by ring. ring. }
  assert (GM3 : (gg (n + 1) m = k3 * gg n m)%R).
  { unfold k3, gg. rewrite <- sqrt_mult_alt by (apply IZR_le; nia). f_equal. replace (n + 1 - m)%Z with (n - m + 1)%Z by ring.
    replace (n + 1 + m)%Z with (n + m + 1)%Z by ring. rewrite (zfact_succ (n + m)), (zfact_succ (n - m)), mult_IZR by lia. ring. }
  assert (K1 : (0 < k1)%R) by (apply sqrt_lt_R0, IZR_lt; nia). assert (K2 : (0 < k2)%R) by (apply sqrt_lt_R0, IZR_lt; nia). assert (K3 : (0 < k3)%R) by (apply sqrt_lt_R0, IZR_lt; nia).
  assert (Gm := gg_pos n m). assert (Gn := gg_pos n 1). assert (Gz := zfact_pos (n + 1)).
  assert (EH1 : HT b n 1 m = - RtoC (gg n 1 / gg n m) * W c s n 1 m).
  { unfold HT. replace (epsm 1 * epsm (- m)) with (RtoC (-1)).
    - unfold dB. fold c s. rewrite dW_W by lia. ring.
    - unfold epsm. rewrite (proj2 (Z.ltb_ge (-1) (- m))) by lia. simpl. unfold sgnC. simpl. ring. }
  assert (EH0 : forall k, (0 <= k <= n + 1)%Z -> HT b (n + 1) 0 k = RtoC (gg (n + 1) 0 / gg (n + 1) k) * W c s (n + 1) 0 k).
  { intros k Hk. unfold HT. replace (epsm 0 * epsm (- k)) with (RtoC 1).
    - unfold dB. fold c s. rewrite dW_W by lia. ring.
    - unfold epsm. simpl. destruct (Z.ltb_spec (-1) (- k)); [replace k with 0%Z by lia|]; unfold sgnC; simpl; ring. }
  rewrite EH1, !EH0, E by lia. rewrite GM1, GM2, GM3, G0.
  replace (s * s) with (RtoC ((1 - cos b) / 2)). replace (c * c) with (RtoC ((1 + cos b) / 2)). 
  replace (RtoC 2 * (s * c)) with (RtoC (sin b)).
  2:{ rewrite (Cmult_comm s c), H2, <- RtoC_mult. f_equal. field. }
  set (w1 := W c s (n + 1) 0 (m + 1)). set (w2 := W c s (n + 1) 0 (m - 1)). set (w3 := W c s (n + 1) 0 m).
  assert (G1' : gg n 1 = (zfact (n + 1) / k0)%R) by (rewrite <- G1; field; lra). rewrite G1'.
  set (z0 := zfact (n + 1)) in *. set (g := gg n m) in *. set (sk := sqrt K) in *. set (cb := cos b). set (sb := sin b).
  clearbody w1 w2 w3 z0 g sk cb sb k0 k1 k2 k3. clear - SK S0 K1 K2 K3 Gm Gz.
  assert (Nz : forall x, (0 < x)%R -> RtoC x <> 0) by (intros x Hx; apply RtoC_neq0; lra).
  replace (RtoC (z0 / k0 / g)) with (RtoC z0 / (RtoC k0 * RtoC g)).
  2:{ rewrite <- RtoC_mult, <- RtoC_div by nra. f_equal. field. lra. }
  assert (Q : forall k, (0 < k)%R -> RtoC (z0 / (k * g)) = RtoC z0 / (RtoC k * RtoC g)) by (intros; rewrite <- RtoC_mult, <- RtoC_div by nra; reflexivity).
  rewrite !Q by assumption.
  replace (RtoC (- (k1 / sk) * (1 - cb) / 2)) with (- (RtoC k1 / RtoC sk) * RtoC ((1 - cb) / 2)) by (rewrite <- RtoC_div, <- RtoC_opp, <- RtoC_mult by lra; f_equal; field; lra).
  replace (RtoC (k2 / sk * (1 + cb) / 2)) with (RtoC k2 / RtoC sk * RtoC ((1 + cb) / 2)) by (rewrite <- RtoC_div, <- RtoC_mult by lra; f_equal; field; lra).
  replace (RtoC (k3 / sk * sb)) with (RtoC k3 / RtoC sk * RtoC sb) by (rewrite <- RtoC_div, <- RtoC_mult by lra; f_equal; field; lra).
  rewrite (RtoC_div k0 sk) by lra. field. repeat split; apply Nz; assumption.
Qed.
