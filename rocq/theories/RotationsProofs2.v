(* Proofs about Rotations.v: the H recursion, the D matrices, rotated moments *)
From Verif Require Export RotationsProofs RotSpec.
From Coq Require Import FunctionalExtensionality Psatz.
From Verif Require Import Cplx.
Open Scope C_scope.

(* rows -a .. b of the wedge |m'| <= m hold the true values, the rest is zero *)
Definition Inv (bt : R) (n a b : Z) (M : cmat) : Prop := forall m' m, (Z.abs m' <= n)%Z -> (Z.abs m <= n)%Z ->
  M (n + m')%Z (n + m)%Z = if ((Z.abs m' <=? m) && (- a <=? m') && (m' <=? b))%bool%Z then HT bt n m' m else 0.
Lemma Inv_in bt n a b M i j m' m : Inv bt n a b M -> (i = n + m')%Z -> (j = n + m)%Z ->
  (Z.abs m' <= m <= n)%Z -> (- a <= m' <= b)%Z -> M i j = HT bt n m' m.
Proof.
  intros H -> -> H1 H2. rewrite H by lia.
  rewrite (proj2 (Z.leb_le _ _)), (proj2 (Z.leb_le (- a) _)), (proj2 (Z.leb_le m' b)) by lia. reflexivity.
Qed.
Lemma Inv_init bt n : (0 <= bt <= PI)%R -> (0 <= n)%Z -> Inv bt n 0 0 (H_init (cos bt) n).
Proof.
  intros Hb Hn m' m H1 H2. unfold H_init.
  destruct (Z.leb_spec (Z.abs m') m), (Z.leb_spec (- 0) m'), (Z.leb_spec m' 0); cbn [andb]; try (rewrite setrow_out by lia; reflexivity).
  replace m' with 0%Z by lia. rewrite setrow_in by lia. cbv zeta. replace (n + m - n)%Z with m by ring.
  symmetry. apply HT_row0; [assumption|lia].
Qed.
Lemma Inv_step3 bt n M Hp : (0 <= bt <= PI)%R -> (1 <= n)%Z -> Inv bt n 0 0 M -> Inv bt (n + 1) 0 0 Hp ->
  Inv bt n 0 1 (H_step3 (cos bt) (sin bt) n Hp M).
Proof.
  intros Hb Hn HM HP m' m H1 H2. unfold H_step3. cbv zeta.
  destruct (Z.eq_dec m' 1) as [->|Hm'].
  - destruct (Z_lt_le_dec m 1).
    + rewrite setrow_out by lia. rewrite HM by lia. rewrite (proj2 (Z.leb_gt (Z.abs 1) m)) by lia. reflexivity.
    + rewrite setrow_in by lia. replace (n + m - n)%Z with m by ring.
      rewrite (Inv_in bt (n + 1) 0 0 Hp _ (n + m + 2)%Z 0 (m + 1) HP) by lia.
      rewrite (Inv_in bt (n + 1) 0 0 Hp _ (n + m)%Z 0 (m - 1) HP) by lia.
      rewrite (Inv_in bt (n + 1) 0 0 Hp _ (n + m + 1)%Z 0 m HP) by lia.
      rewrite (proj2 (Z.leb_le (Z.abs 1) m)) by lia. cbn [andb Z.leb Z.opp Z.compare]. symmetry. apply HT_step3. lia.
  - rewrite setrow_out by lia. rewrite HM by lia.
    destruct (Z.leb_spec m' 0), (Z.leb_spec m' 1); try lia; reflexivity.
Qed.
Lemma div_eq (x y z : C) : z <> 0 -> z * x = y -> x = y / z.
Proof. intros Hz <-. field. assumption. Qed.
Lemma Inv_step5 bt n mp b M : (1 <= n)%Z -> (0 <= mp < n)%Z -> (1 <= b)%Z ->
  Inv bt n mp b M -> Inv bt n (mp + 1) b (H_step5 n mp M).
Proof.
  intros Hn Hmp Hb HM m' m H1 H2. unfold H_step5. cbv zeta.
  destruct (Z.eq_dec m' (- mp - 1)) as [->|Hm'].
  - destruct (Z_lt_le_dec m (mp + 1)).
    + rewrite !setrow_out by lia. rewrite HM by lia.
      rewrite (proj2 (Z.leb_gt (Z.abs (- mp - 1)) m)) by lia. reflexivity.
    + assert (E := H_rec bt n (- mp) m ltac:(lia) ltac:(lia)).
      rewrite (proj2 (Z.leb_le (Z.abs (- mp - 1)) m)), (proj2 (Z.leb_le (- (mp + 1)) (- mp - 1))), (proj2 (Z.leb_le (- mp - 1) b)) by lia. cbn [andb].
      assert (Dn := dnm_neq0 n (- mp - 1) ltac:(lia)).
      destruct (Z.eq_dec m n) as [->|Hmn].
      * rewrite setrow_in by lia. rewrite !setrow_out by lia.
        rewrite (Inv_in bt n mp b M (n - mp + 1) (2 * n) (- mp + 1) n HM) by lia.
        rewrite (Inv_in bt n mp b M (n - mp) (2 * n - 1) (- mp) (n - 1) HM) by lia.
        symmetry; apply div_eq; [assumption|]. rewrite dnm_top in E.
        transitivity (RtoC (dnm n (- mp - 1)) * HT bt n (- mp - 1) n - RtoC (dnm n (- mp)) * HT bt n (- mp + 1) n + RtoC (dnm n (- mp)) * HT bt n (- mp + 1) n); [ring|].
        rewrite E. ring.
      * rewrite (setrow_out _ _ (2 * n)) by lia. rewrite setrow_in by lia.
        rewrite (Inv_in bt n mp b M (n - mp + 1) (n + m) (- mp + 1) m HM) by lia.
        rewrite (Inv_in bt n mp b M (n - mp) (n + m - 1) (- mp) (m - 1) HM) by lia.
        rewrite (Inv_in bt n mp b M (n - mp) (n + m + 1) (- mp) (m + 1) HM) by lia.
        replace (n + m - n - 1)%Z with (m - 1)%Z by ring. replace (n + m - n)%Z with m by ring.
        symmetry; apply div_eq; [assumption|].
        transitivity (RtoC (dnm n (- mp - 1)) * HT bt n (- mp - 1) m - RtoC (dnm n (- mp)) * HT bt n (- mp + 1) m + RtoC (dnm n (- mp)) * HT bt n (- mp + 1) m); [ring|].
        rewrite E. ring.
  - rewrite !setrow_out by lia. rewrite HM by lia.
    destruct (Z.leb_spec (- mp) m'), (Z.leb_spec (- (mp + 1)) m'); try lia; reflexivity.
Qed.
Lemma Inv_step4 bt n mp a M : (1 <= n)%Z -> (1 <= mp < n)%Z -> (0 <= a)%Z ->
  Inv bt n a mp M -> Inv bt n a (mp + 1) (H_step4 n mp M).
Proof.
  intros Hn Hmp Ha HM m' m H1 H2. unfold H_step4. cbv zeta.
  destruct (Z.eq_dec m' (mp + 1)) as [->|Hm'].
  - destruct (Z_lt_le_dec m (mp + 1)).
    + rewrite !setrow_out by lia. rewrite HM by lia.
      rewrite (proj2 (Z.leb_gt (Z.abs (mp + 1)) m)) by lia. reflexivity.
    + assert (E := H_rec bt n mp m ltac:(lia) ltac:(lia)).
      rewrite (proj2 (Z.leb_le (Z.abs (mp + 1)) m)), (proj2 (Z.leb_le (- a) (mp + 1))), (proj2 (Z.leb_le (mp + 1) (mp + 1))) by lia. cbn [andb].
      assert (Dn := dnm_neq0 n mp ltac:(lia)).
      destruct (Z.eq_dec m n) as [->|Hmn].
      * rewrite setrow_in by lia. rewrite !setrow_out by lia.
        rewrite (Inv_in bt n a mp M (n + mp - 1) (2 * n) (mp - 1) n HM) by lia.
        rewrite (Inv_in bt n a mp M (n + mp) (2 * n - 1) mp (n - 1) HM) by lia.
        symmetry; apply div_eq; [assumption|]. rewrite dnm_top in E.
        transitivity (RtoC (dnm n (mp - 1)) * HT bt n (mp - 1) n - (RtoC (dnm n (mp - 1)) * HT bt n (mp - 1) n - RtoC (dnm n mp) * HT bt n (mp + 1) n)); [ring|].
        rewrite E. ring.
      * rewrite (setrow_out _ _ (2 * n)) by lia. rewrite setrow_in by lia.
        rewrite (Inv_in bt n a mp M (n + mp - 1) (n + m) (mp - 1) m HM) by lia.
        rewrite (Inv_in bt n a mp M (n + mp) (n + m - 1) mp (m - 1) HM) by lia.
        rewrite (Inv_in bt n a mp M (n + mp) (n + m + 1) mp (m + 1) HM) by lia.
        replace (n + m - n - 1)%Z with (m - 1)%Z by ring. replace (n + m - n)%Z with m by ring.
        symmetry; apply div_eq; [assumption|].
        transitivity (RtoC (dnm n (mp - 1)) * HT bt n (mp - 1) m - (RtoC (dnm n (mp - 1)) * HT bt n (mp - 1) m - RtoC (dnm n mp) * HT bt n (mp + 1) m)); [ring|].
        rewrite E. ring.
  - rewrite !setrow_out by lia. rewrite HM by lia.
    destruct (Z.leb_spec m' mp), (Z.leb_spec m' (mp + 1)); try lia; reflexivity.
Qed.
Lemma Inv_loop bt n M : (1 <= n)%Z -> Inv bt n 1 1 M ->
  Inv bt n n n (zfor 1 n (fun mp M => H_step4 n mp (H_step5 n mp M)) M).
Proof.
  intros Hn H. apply (zfor_ind (fun k M => Inv bt n k k M)); [lia|assumption|].
  intros k t Hk IH. apply Inv_step4; try lia. apply Inv_step5; try lia. assumption.
Qed.
Definition Full (bt : R) (n : Z) (M : cmat) : Prop := forall m' m, (Z.abs m' <= n)%Z -> (Z.abs m <= n)%Z ->
  M (n + m')%Z (n + m)%Z = HT bt n m' m.
Lemma Inv_full bt n M : (0 <= n)%Z -> Inv bt n n n M ->
  Full bt n (rot90 (2 * n + 1) (copy_tri (rot90m (2 * n + 1) (copy_tri M)))).
Proof.
  intros Hn H m' m H1 H2. unfold rot90, rot90m, copy_tri.
  replace (2 * n + 1 - 1 - (2 * n + 1 - 1 - (n + m')))%Z with (n + m')%Z by ring.
  replace (2 * n + 1 - 1 - (n + m))%Z with (n + - m)%Z by ring.
  replace (2 * n + 1 - 1 - (n + m'))%Z with (n + - m')%Z by ring.
  assert (HI : forall a b, (Z.abs a <= n)%Z -> (Z.abs b <= n)%Z -> M (n + a)%Z (n + b)%Z = if (Z.abs a <=? b)%Z then HT bt n a b else 0).
  { intros a b Ha Hb. rewrite H by assumption. rewrite (proj2 (Z.leb_le (- n) a)), (proj2 (Z.leb_le a n)) by lia. now rewrite !andb_true_r. }
  rewrite !HI by lia. clear HI H.
  assert (S := HT_symm bt n m' m). assert (A := HT_anti bt n m' m). assert (SA := HT_symm bt n (- m) (- m')).
  destruct (Z.eqb_spec (n + m') (n + m)), (Z.eqb_spec (n + m) (n + - m')), (Z.eqb_spec (n + - m) (n + - m')),
    (Z.leb_spec (Z.abs m') m), (Z.leb_spec (Z.abs m) m'), (Z.leb_spec (Z.abs (- m)) (- m')), (Z.leb_spec (Z.abs (- m')) (- m)); try lia;
   try (replace m' with (- m)%Z in * by lia); try (replace m with 0%Z in * by lia); try (replace m' with m in * by lia);
   rewrite ?Z.opp_involutive in *; simpl (- 0)%Z in *; rewrite ?SA, ?A, ?S; try ring.
Qed.
Lemma H_all bt p : (0 <= bt <= PI)%R -> (1 <= p)%Z -> forall l, (0 <= l <= p)%Z ->
  Full bt l (zfor 1 (p + 1) (H_iter (cos bt) (sin bt)) (H_init (cos bt)) l).
Proof.
  intros Hb Hp.
  assert (G := zfor_ind (fun n (H : Z -> cmat) => (forall l, (0 <= l < n)%Z -> Full bt l (H l)) /\ (forall l, (n <= l)%Z -> Inv bt l 0 0 (H l)))
     1 (p + 1) (H_iter (cos bt) (sin bt)) (H_init (cos bt)) ltac:(lia)).
  cbv beta in G. destruct G as [G _].
  - split.
    + intros l Hl m' m H1 H2. replace l with 0%Z in * by lia. rewrite (Inv_init bt 0 Hb ltac:(lia)) by assumption.
      replace m' with 0%Z by lia. replace m with 0%Z by lia. reflexivity.
    + intros l Hl. apply Inv_init; [assumption|lia].
  - intros n H Hn [I1 I2]. split.
    + intros l Hl. unfold H_iter. cbv zeta. unfold setmat. destruct (Z.eqb_spec l n) as [->|]; [|apply I1; lia].
      apply Inv_full; [lia|]. apply Inv_loop; [lia|]. change 1%Z with (0 + 1)%Z at 1. apply Inv_step5; try lia.
      apply Inv_step3; try lia; try assumption; apply I2; lia.
    + intros l Hl. unfold H_iter. cbv zeta. unfold setmat. destruct (Z.eqb_spec l n); [lia|]. apply I2; lia.
  - intros l Hl. apply G. lia.
Qed.

(* ---- reduced angle ---- *)
Lemma pymod_range t m : (0 < m)%R -> (0 <= pymod t m < m)%R.
Proof.
  intros Hm. unfold pymod. destruct (base_Int_part (t / m)) as [H1 H2]. set (k := IZR (Int_part (t / m))) in *.
  assert (E : (t = m * (t / m))%R) by (field; lra). split; rewrite E at 1; nra.
Qed.
Lemma beta_red_range b : (0 <= beta_red b <= PI)%R.
Proof.
  unfold beta_red. assert (H := pymod_range b (2 * PI)). assert (Hp := PI_RGT_0).
  destruct (Rlt_dec PI (pymod b (2 * PI))); lra.
Qed.
Lemma dB_mod b l n m : dB (pymod b (2 * PI)) l n m = dB b l n m.
Proof.
  unfold pymod. set (k := Int_part _). replace (b - 2 * PI * IZR k)%R with (b + 2 * PI * IZR (- k))%R by (rewrite opp_IZR; ring).
  apply dB_2kPI.
Qed.
Lemma dB_red b l n m : dB (beta_red b) l n m * beta_fac b n m = dB b l n m.
Proof.
  unfold beta_red, beta_fac. rewrite <- (dB_mod b). destruct (Rlt_dec PI (pymod b (2 * PI))); [|ring].
  set (x := pymod b (2 * PI)). replace (2 * PI - x)%R with (- x + 2 * PI)%R by ring. rewrite dB_2PI, dB_opp_sgn, !sgnC_abs, sgnC_sub.
  transitivity ((sgnC n * sgnC n) * (sgnC m * sgnC m) * dB x l n m); [ring|]. rewrite !sgnC_sq. ring.
Qed.
(* ---- wignerDl, dlmn ---- *)
Lemma wignerDl_DD LMax a b g : (1 <= LMax)%Z -> exists ds, wignerDl LMax a b g = Ok ds /\ mlen ds = (LMax + 1)%Z /\
  forall l m' m, (0 <= l <= LMax)%Z -> (Z.abs m' <= l)%Z -> (Z.abs m <= l)%Z -> mget ds l (l + m')%Z (l + m)%Z = DD a b g l m' m.
Proof.
  intros HL. unfold wignerDl, rotate_H_recurs. rewrite (proj2 (Z.eqb_neq LMax 0)) by lia.
  eexists. split; [reflexivity|]. split; [reflexivity|]. intros l m' m Hl H1 H2. cbn [mget].
  rewrite (H_all (beta_red b) LMax (beta_red_range b) HL l Hl m' m H1 H2).
  replace (l + m' - l)%Z with m' by ring. replace (l + m - l)%Z with m by ring.
  unfold HT, DD. rewrite cexpi_split, <- (dB_red b).
  transitivity ((epsm m' * epsm m') * (epsm (- m) * epsm (- m)) * (cexpi (- (IZR m' * a)) * cexpi (- (IZR m * g))) * (dB (beta_red b) l m' m * beta_fac b m' m)); [ring|].
  rewrite !epsm_sq. ring.
Qed.
Lemma dlmn_dB LMax b : (1 <= LMax)%Z -> exists ds, dlmn LMax b = Ok ds /\ mlen ds = (LMax + 1)%Z /\
  forall l m' m, (0 <= l <= LMax)%Z -> (Z.abs m' <= l)%Z -> (Z.abs m <= l)%Z -> mget ds l (l + m')%Z (l + m)%Z = dB b l m' m.
Proof.
  intros HL. unfold dlmn, rotate_H_recurs. rewrite (proj2 (Z.eqb_neq LMax 0)) by lia.
  eexists. split; [reflexivity|]. split; [reflexivity|]. intros l m' m Hl H1 H2. cbn [mget].
  rewrite (H_all (beta_red b) LMax (beta_red_range b) HL l Hl m' m H1 H2).
  replace (l + m' - l)%Z with m' by ring. replace (l + m - l)%Z with m by ring.
  unfold HT. rewrite <- (dB_red b).
  transitivity ((epsm m' * epsm m') * (epsm (- m) * epsm (- m)) * (dB (beta_red b) l m' m * beta_fac b m' m)); [ring|].
  rewrite !epsm_sq. ring.
Qed.

(* ---- properties of DD ---- *)
Lemma DD_0 a b g : DD a b g 0 0 0 = 1.
Proof. unfold DD, dB. rewrite dW_0. replace (- (a * 0 + g * 0))%R with 0%R by ring. rewrite cexpi_0. ring. Qed.
Lemma DD_id l n m : (Z.abs m <= l)%Z -> DD 0 0 0 l n m = if (n =? m)%Z then 1 else 0.
Proof. intros. unfold DD. rewrite dB_0 by assumption. replace (- (0 * IZR n + 0 * IZR m))%R with 0%R by ring. rewrite cexpi_0. ring. Qed.
Lemma DD_adj a b g l n m : Cconj (DD a b g l n m) = DD (- g) (- b) (- a) l m n.
Proof.
  unfold DD. rewrite Cconj_mult, dB_conj, dB_opp, cexpi_conj. f_equal. f_equal. ring.
Qed.
(* product with matching middle angles *)
Lemma DD_comp a b g a' b' g' l n m : (Z.abs m <= l)%Z -> (g + a' = 0)%R ->
  zsum (- l) (l + 1) (fun k => DD a b g l n k * DD a' b' g' l k m) = DD a (b' + b) g' l n m.
Proof.
  intros Hm Hg. unfold DD. rewrite <- dB_add, <- zsum_scal_l by assumption. apply zsum_ext. intros k Hk.
  rewrite !cexpi_split.
  transitivity ((cexpi (- (IZR k * g)) * cexpi (- (IZR k * a'))) * (cexpi (- (IZR n * a)) * cexpi (- (IZR m * g'))) * (dB b l n k * dB b' l k m)); [ring|].
  rewrite <- (cexpi_plus (- (IZR k * g))). replace (- (IZR k * g) + - (IZR k * a'))%R with (- IZR k * (g + a'))%R by ring. rewrite Hg, Rmult_0_r, cexpi_0. ring.
Qed.
Lemma DD_unitary a b g l n m : (Z.abs m <= l)%Z ->
  zsum (- l) (l + 1) (fun k => DD a b g l n k * Cconj (DD a b g l m k)) = if (n =? m)%Z then 1 else 0.
Proof.
  intros Hm. rewrite (zsum_ext _ _ _ (fun k => DD a b g l n k * DD (- g) (- b) (- a) l k m)) by (intros; now rewrite DD_adj).
  rewrite DD_comp by (assumption || ring). replace (- b + b)%R with 0%R by ring. unfold DD. rewrite dB_0 by assumption.
  destruct (Z.eqb_spec n m) as [->|]; [|ring]. replace (- (a * IZR m + - a * IZR m))%R with 0%R by ring. rewrite cexpi_0. ring.
Qed.
Lemma DD_unitary' a b g l n m : (Z.abs m <= l)%Z ->
  zsum (- l) (l + 1) (fun k => Cconj (DD a b g l k n) * DD a b g l k m) = if (n =? m)%Z then 1 else 0.
Proof.
  intros Hm. rewrite <- (DD_unitary (- g) (- b) (- a) l n m Hm). apply zsum_ext. intros k _.
  rewrite !DD_adj. replace (- - a)%R with a by ring. replace (- - b)%R with b by ring. replace (- - g)%R with g by ring. reflexivity.
Qed.
Lemma DD_neg a b g l n m : DD a b g l (- n) (- m) = sgnC (n - m) * Cconj (DD a b g l n m).
Proof.
  unfold DD, dB. rewrite dW_neg, Cconj_mult, dW_real, cexpi_conj. rewrite !opp_IZR.
  replace (- (a * - IZR n + g * - IZR m))%R with (- - (a * IZR n + g * IZR m))%R by ring. ring.
Qed.
Lemma DD_z a a' l n m : (Z.abs m <= l)%Z -> DD a 0 a' l n m = if (n =? m)%Z then cexpi (- (IZR n * (a + a'))) else 0.
Proof.
  intros. unfold DD. rewrite dB_0 by assumption. destruct (Z.eqb_spec n m) as [->|]; [|ring].
  rewrite Cmult_1_r. f_equal. ring.
Qed.

(* ---- applying matrices to moment arrays ---- *)
Definition act (D : Z -> Z -> Z -> C) (q : marr) (l m : Z) : C := zsum (- l) (l + 1) (fun k => D l m k * mom q l k).
Lemma put_dot_loop (Ds : Z -> cmat) q : (0 <= deg q)%Z ->
  let q' := zfor 1 (deg q + 1) (fun k qn => put_dot (Ds k) q k qn) q in
  deg q' = deg q /\ forall i j, at_ q' i j =
   if ((1 <=? i) && (i <=? deg q) && (deg q - i <=? j) && (j <=? deg q + i))%bool%Z
   then zsum 0 (2 * i + 1) (fun t => Ds i (j - (deg q - i))%Z t * at_ q i (deg q - i + t)%Z) else at_ q i j.
Proof.
  intros HL. cbv zeta.
  assert (G := zfor_ind (fun b q' => deg q' = deg q /\ forall i j, at_ q' i j =
   if ((1 <=? i) && (i <? b) && (deg q - i <=? j) && (j <=? deg q + i))%bool%Z
   then zsum 0 (2 * i + 1) (fun t => Ds i (j - (deg q - i))%Z t * at_ q i (deg q - i + t)%Z) else at_ q i j) 1 (deg q + 1)
    (fun k qn => put_dot (Ds k) q k qn) q ltac:(lia)).
  cbv beta in G. destruct G as [Gd G].
  - split; [reflexivity|]. intros i j. destruct (Z.leb_spec 1 i), (Z.ltb_spec i 1); try lia; reflexivity.
  - intros k t Hk [IHd IH]. unfold put_dot. cbn [deg at_]. split; [exact IHd|]. intros i j.
    destruct (Z.eq_dec i k) as [->|Hik].
    + destruct (Z.leb_spec (deg q - k) j), (Z.leb_spec j (deg q + k)).
      * rewrite setrow_in by lia. rewrite (proj2 (Z.leb_le 1 k)), (proj2 (Z.ltb_lt k (k + 1))) by lia. reflexivity.
      * rewrite setrow_out by lia. rewrite IH, (proj2 (Z.ltb_ge k k)) by lia. rewrite andb_false_r. cbn [andb]. now rewrite andb_false_r.
      * rewrite setrow_out by lia. rewrite IH, (proj2 (Z.ltb_ge k k)) by lia. rewrite !andb_false_r. cbn [andb]. reflexivity.
      * rewrite setrow_out by lia. rewrite IH, (proj2 (Z.ltb_ge k k)) by lia. rewrite !andb_false_r. cbn [andb]. reflexivity.
    + rewrite setrow_out by lia. rewrite IH. destruct (Z.ltb_spec i k), (Z.ltb_spec i (k + 1)); try lia; reflexivity.
  - split; [exact Gd|]. intros i j. rewrite G. destruct (Z.ltb_spec i (deg q + 1)), (Z.leb_spec i (deg q)); try lia; reflexivity.
Qed.
Lemma put_dot_mom (Ds : Z -> cmat) (D : Z -> Z -> Z -> C) q : (0 <= deg q)%Z ->
  (forall l m' m, (1 <= l <= deg q)%Z -> (Z.abs m' <= l)%Z -> (Z.abs m <= l)%Z -> Ds l (l + m')%Z (l + m)%Z = D l m' m) ->
  let q' := zfor 1 (deg q + 1) (fun k qn => put_dot (Ds k) q k qn) q in
  deg q' = deg q /\ (forall l m, (1 <= l <= deg q)%Z -> (Z.abs m <= l)%Z -> mom q' l m = act D q l m)
  /\ (forall l m, (0 <= l <= deg q)%Z -> (l < Z.abs m \/ l = 0)%Z -> mom q' l m = mom q l m).
Proof.
  intros HL HD. destruct (put_dot_loop Ds q HL) as [Ed Ea]. cbv zeta in *. split; [exact Ed|]. split.
  - intros l m Hl Hm. unfold mom at 1. rewrite Ed, Ea.
    rewrite (proj2 (Z.leb_le 1 l)), (proj2 (Z.leb_le l (deg q))), (proj2 (Z.leb_le (deg q - l) (deg q + m))), (proj2 (Z.leb_le (deg q + m) (deg q + l))) by lia. cbn [andb].
    unfold act. rewrite (zsum_shift l (- l)). replace (- l + l)%Z with 0%Z by ring. replace (l + 1 + l)%Z with (2 * l + 1)%Z by ring.
    apply zsum_ext. intros t Ht. rewrite <- HD by lia. unfold mom. f_equal; [f_equal; ring|f_equal; ring].
  - intros l m Hl Hm. unfold mom. rewrite Ed, Ea.
    destruct (Z.leb_spec 1 l), (Z.leb_spec l (deg q)), (Z.leb_spec (deg q - l) (deg q + m)), (Z.leb_spec (deg q + m) (deg q + l)); try lia; reflexivity.
Qed.
Lemma rotate_qlm_mom q a b g : (0 <= deg q)%Z -> exists q', rotate_qlm q a b g = Ok q' /\ deg q' = deg q /\
  (forall l m, (0 <= l <= deg q)%Z -> (Z.abs m <= l)%Z -> mom q' l m = act (DD a b g) q l m)
  /\ (forall l m, (0 <= l <= deg q)%Z -> (l < Z.abs m)%Z -> mom q' l m = mom q l m).
Proof.
  intros HL. unfold rotate_qlm. destruct (wignerDl_DD (deg q + 1) a b g ltac:(lia)) as (ds & E & _ & H). rewrite E. cbn [bind].
  eexists. split; [reflexivity|].
  destruct (put_dot_mom (mget ds) (DD a b g) q HL) as (Ed & E1 & E2); [intros; apply H; lia|].
  split; [exact Ed|]. split; [|intros; apply E2; lia]. intros l m Hl Hm. destruct (Z.eq_dec l 0) as [->|].
  - rewrite E2 by lia. replace m with 0%Z by lia. unfold act. rewrite zsum_first, zsum_empty by lia. simpl (- 0)%Z. rewrite DD_0. ring.
  - apply E1; lia.
Qed.
Lemma act_ext D q q' l m : (forall k, (Z.abs k <= l)%Z -> mom q l k = mom q' l k) -> act D q l m = act D q' l m.
Proof. intros H. apply zsum_ext. intros k Hk. now rewrite H by lia. Qed.

(* ---- rotating a body ---- *)
Lemma S_zrot a l m v : S_ l m (zrot a v) = cexpi (- (IZR m * a)) * S_ l m v.
Proof.
  destruct v as [[x y] z]. unfold S_, zrot, solid.
  replace (- (IZR m * a))%R with (IZR m * - a)%R by ring. rewrite <- wpow_cexpi, <- tri_phase by apply cexpi_neq0.
  assert (E : / cexpi (- a) = cexpi a).
  { assert (H1 := cexpi_opp_mul a). assert (H2 := cexpi_neq0 (- a)).
    transitivity (cexpi (- a) * cexpi a / cexpi (- a)); [rewrite H1; field; assumption|field; assumption]. }
  rewrite E. f_equal; apply C_eq; unfold cexpi; simpl; rewrite ?cos_neg, ?sin_neg; field.
Qed.
Lemma S_yrot b l n v : (0 <= l)%Z -> S_ l n (yrot b v) =
  zsum (- l) (l + 1) (fun m => W (RtoC (cos (b / 2))) (RtoC (sin (b / 2))) l n m * S_ l m v).
Proof.
  intros Hl. destruct v as [[x y] z]. unfold S_, yrot, solid. rewrite <- tri_act by assumption.
  destruct (half_cs b) as (H1 & H2 & H3 & H4 & H5). cbv zeta in *. unfold rotA, rotZ, rotB.
  rewrite H2, H4, H5. rewrite (Cmult_comm (RtoC (sin (b / 2)))), H2. rewrite <- ?H1. 
  replace (RtoC ((1 + cos b) / 2) - RtoC ((1 - cos b) / 2)) with (RtoC (cos b)) by (rewrite <- RtoC_minus; f_equal; field).
  f_equal; apply C_eq; simpl; field.
Qed.
Lemma rsolid_euler a b g l n v : (0 <= l)%Z -> (Z.abs n <= l)%Z ->
  rsolid l n (euler a b g v) = zsum (- l) (l + 1) (fun m => DD a b g l n m * rsolid l m v).
Proof.
  intros Hl Hn. unfold euler. rewrite rsolid_S, S_zrot, S_yrot by assumption. rewrite <- !zsum_scal_l. apply zsum_ext. intros m Hm.
  rewrite S_zrot, rsolid_S. unfold DD, dB. rewrite dW_W by lia. rewrite cexpi_split. rewrite !nrm_gg by assumption.
  set (k := sqrt _). assert (H1 := gg_pos l n). assert (H2 := gg_pos l m).
  replace (RtoC (k * gg l n)) with (RtoC (gg l n / gg l m) * RtoC (k * gg l m)) by (rewrite <- RtoC_mult; f_equal; field; lra). ring.
Qed.
Lemma inner_euler a b g P l n : (0 <= l)%Z -> (Z.abs n <= l)%Z ->
  inner_moment (map (fun p => mkpt (pm p) (euler a b g (pp p))) P) l n = zsum (- l) (l + 1) (fun m => DD a b g l n m * inner_moment P l m).
Proof.
  intros Hl Hn. unfold inner_moment. rewrite lsum_map. cbn [pm pp].
  rewrite (lsum_ext _ (fun p => zsum (- l) (l + 1) (fun m => DD a b g l n m * (RtoC (pm p) * rsolid l m (pp p))))).
  - rewrite (lsum_zsum (- l) (l + 1) (fun m p => DD a b g l n m * (RtoC (pm p) * rsolid l m (pp p)))). apply zsum_ext. intros m _. now rewrite lsum_scal.
  - intros p _. rewrite rsolid_euler by assumption. rewrite <- zsum_scal_l. apply zsum_ext. intros. ring.
Qed.
Lemma rotate_points q P a b g : (0 <= deg q)%Z -> holds q (inner_moment P) -> exists q', rotate_qlm q a b g = Ok q' /\ deg q' = deg q /\
  holds q' (inner_moment (map (fun p => mkpt (pm p) (euler a b g (pp p))) P)).
Proof.
  intros HL [H1 H2]. destruct (rotate_qlm_mom q a b g HL) as (q' & E & Ed & E1 & E2). exists q'. split; [exact E|]. split; [exact Ed|]. split.
  - rewrite Ed. intros l m Hl Hm. rewrite E1, inner_euler by lia. apply zsum_ext. intros k Hk. now rewrite H1 by lia.
  - intros l m Hl Hm. rewrite Ed in *. rewrite E2 by lia. apply H2; lia.
Qed.
Lemma rotate_reality q q' a b g : (0 <= deg q)%Z -> reality q -> rotate_qlm q a b g = Ok q' -> reality q'.
Proof.
  intros HL HR E0. destruct (rotate_qlm_mom q a b g HL) as (q'' & E & Ed & E1 & E2). rewrite E0 in E. injection E as <-.
  intros l m Hl Hm. rewrite Ed in *. destruct (Z_lt_le_dec l (Z.abs m)).
  - rewrite !E2 by lia. now apply HR.
  - rewrite !E1 by lia. unfold act. rewrite zsum_conj, <- zsum_scal_l. rewrite zsum_rev.
    replace (1 - (l + 1))%Z with (- l)%Z by ring. replace (1 - - l)%Z with (l + 1)%Z by ring. apply zsum_ext. intros k Hk.
    rewrite DD_neg, HR, Cconj_mult, sgnC_sub by lia.
    transitivity (sgnC k * sgnC k * (sgnC m * (Cconj (DD a b g l m k) * Cconj (mom q l k)))); [ring|]. rewrite sgnC_sq. ring.
Qed.

(* ---- outer moments of a rotated body ---- *)
Lemma vnorm_euler a b g v : vnorm (euler a b g v) = vnorm v.
Proof.
  destruct v as [[x y] z]. unfold euler, zrot, yrot. rewrite !vnorm_xyz. f_equal.
  assert (Ha := sin2_cos2 a). assert (Hb := sin2_cos2 b). assert (Hg := sin2_cos2 g). unfold Rsqr in *.
  set (ca := cos a) in *. set (sa := sin a) in *. set (cb := cos b) in *. set (sb := sin b) in *. set (cg := cos g) in *. set (sg := sin g) in *.
  clearbody ca sa cb sb cg sg.
  set (x1 := (cg * x - sg * y)%R). set (y1 := (sg * x + cg * y)%R).
  set (x2 := (cb * x1 + sb * z)%R). set (z2 := (- sb * x1 + cb * z)%R).
  transitivity ((sa * sa + ca * ca) * (x2 ^ 2 + y1 ^ 2) + z2 ^ 2)%R; [ring|]. rewrite Ha.
  transitivity ((sb * sb + cb * cb) * (x1 ^ 2 + z ^ 2) + y1 ^ 2)%R; [unfold x2, z2; ring|]. rewrite Hb.
  transitivity ((sg * sg + cg * cg) * (x ^ 2 + y ^ 2) + z ^ 2)%R; [unfold x1, y1; ring|]. rewrite Hg. ring.
Qed.
Lemma isolid_euler a b g l n v : (0 <= l)%Z -> (Z.abs n <= l)%Z ->
  isolid l n (euler a b g v) = zsum (- l) (l + 1) (fun m => Cconj (DD a b g l n m) * isolid l m v).
Proof.
  intros Hl Hn. unfold isolid. rewrite vnorm_euler, rsolid_euler, zsum_conj by assumption. unfold Cdiv. rewrite <- zsum_scal_r.
  apply zsum_ext. intros m _. rewrite Cconj_mult. ring.
Qed.
Lemma outer_euler a b g P l n : (0 <= l)%Z -> (Z.abs n <= l)%Z ->
  outer_moment (map (fun p => mkpt (pm p) (euler a b g (pp p))) P) l n = zsum (- l) (l + 1) (fun m => Cconj (DD a b g l n m) * outer_moment P l m).
Proof.
  intros Hl Hn. unfold outer_moment. rewrite lsum_map. cbn [pm pp].
  rewrite (lsum_ext _ (fun p => zsum (- l) (l + 1) (fun m => Cconj (DD a b g l n m) * (RtoC (pm p) * isolid l m (pp p))))).
  - rewrite (lsum_zsum (- l) (l + 1) (fun m p => Cconj (DD a b g l n m) * (RtoC (pm p) * isolid l m (pp p)))). apply zsum_ext. intros m _. now rewrite lsum_scal.
  - intros p _. rewrite isolid_euler by assumption. rewrite <- zsum_scal_l. apply zsum_ext. intros. ring.
Qed.
Lemma DD_conj a b g l n m : Cconj (DD a b g l n m) = DD (- a) b (- g) l n m.
Proof. unfold DD. rewrite Cconj_mult, dB_conj, cexpi_conj. f_equal. f_equal. ring. Qed.
Lemma rotate_outer_points Q P a b g : (0 <= deg Q)%Z -> holds Q (outer_moment P) -> exists Q', rotate_qlm Q a b g = Ok Q' /\ deg Q' = deg Q /\
  holds Q' (outer_moment (map (fun p => mkpt (pm p) (euler (- a) b (- g) (pp p))) P)).
Proof.
  intros HL [H1 H2]. destruct (rotate_qlm_mom Q a b g HL) as (q' & E & Ed & E1 & E2). exists q'. split; [exact E|]. split; [exact Ed|]. split.
  - rewrite Ed. intros l m Hl Hm. rewrite E1, outer_euler by lia. apply zsum_ext. intros k Hk. rewrite H1 by lia.
    rewrite DD_conj. now rewrite !Ropp_involutive.
  - intros l m Hl Hm. rewrite Ed in *. rewrite E2 by lia. apply H2; lia.
Qed.

(* ---- the list versions ---- *)
Lemma Ds_mom q ds ct (D : Z -> Z -> Z -> C) : (0 <= deg q)%Z -> mlen ds = (deg q + 1)%Z ->
  (forall l m' m, (0 <= l <= deg q)%Z -> (Z.abs m' <= l)%Z -> (Z.abs m <= l)%Z -> mget ds l (l + m')%Z (l + m)%Z = D l m' m) ->
  let q' := rotate_qlm_Ds q ds ct in
  deg q' = deg q /\ (forall l m, (1 <= l <= deg q)%Z -> (Z.abs m <= l)%Z -> mom q' l m = act (fun l i j => if ct then Cconj (D l j i) else D l i j) q l m)
  /\ (forall l m, (0 <= l <= deg q)%Z -> (l < Z.abs m \/ l = 0)%Z -> mom q' l m = mom q l m).
Proof.
  intros HL Hlen HD. unfold rotate_qlm_Ds. rewrite Hlen. replace (deg q + 1 - 1)%Z with (deg q) by ring. rewrite Z.eqb_refl. cbn [negb].
  apply (put_dot_mom (fun k => if ct then ctrans (mget ds k) else mget ds k)); [exact HL|]. intros l m' m Hl H1 H2.
  destruct ct; unfold ctrans; rewrite HD by lia; reflexivity.
Qed.
Lemma Ds_right_mom q ds ct (D : Z -> Z -> Z -> C) : (0 <= deg q)%Z -> mlen ds = (deg q + 1)%Z ->
  (forall l m' m, (0 <= l <= deg q)%Z -> (Z.abs m' <= l)%Z -> (Z.abs m <= l)%Z -> mget ds l (l + m')%Z (l + m)%Z = D l m' m) ->
  let q' := rotate_qlm_Ds_right q ds ct in
  deg q' = deg q /\ (forall l m, (1 <= l <= deg q)%Z -> (Z.abs m <= l)%Z -> mom q' l m = act (fun l i j => if ct then Cconj (D l i j) else D l j i) q l m)
  /\ (forall l m, (0 <= l <= deg q)%Z -> (l < Z.abs m \/ l = 0)%Z -> mom q' l m = mom q l m).
Proof.
  intros HL Hlen HD. unfold rotate_qlm_Ds_right. rewrite Hlen. replace (deg q + 1 - 1)%Z with (deg q) by ring. rewrite Z.eqb_refl. cbn [negb].
  apply (put_dot_mom (fun k => ttrans (if ct then ctrans (mget ds k) else mget ds k))); [exact HL|]. intros l m' m Hl H1 H2.
  destruct ct; unfold ttrans, ctrans; rewrite HD by lia; reflexivity.
Qed.
Lemma qmoments_ok L P q : (0 <= L)%Z -> qmoments L P = Ok q -> deg q = L /\ holds q (inner_moment P).
Proof.
  intros HL E. destruct (Z.eq_dec L 0) as [->|HL0].
  - destruct (qmoments_0 P) as (a & Ea & Da & Ha). rewrite E in Ea. injection Ea as <-. now split.
  - destruct (Classical_Prop.classic (origin_before_other P)) as [Hb|Hb].
    + rewrite (qmoments_bad L P) in E by (assumption || lia). discriminate.
    + destruct (qmoments_good L P HL Hb) as (a & Ea & Da & Ha). rewrite E in Ea. injection Ea as <-. now split.
Qed.
Lemma euler_v0 a b g : euler a b g v0 = v0.
Proof. unfold euler, v0, zrot, yrot. f_equal; [f_equal|]; ring. Qed.
Lemma origin_before_euler a b g P : origin_before_other (map (fun p => mkpt (pm p) (euler a b g (pp p))) P) -> origin_before_other P.
Proof.
  intros (l1 & p & l2 & r & l3 & E & Hp & Hr).
  apply map_eq_app in E. destruct E as (k1 & k2 & -> & <- & E). destruct k2 as [|p0 k2]; [discriminate|]. injection E as E1 E.
  apply map_eq_app in E. destruct E as (k3 & k4 & -> & <- & E). destruct k4 as [|r0 k4]; [discriminate|]. injection E as E2 E3.
  exists k1, p0, k3, r0, k4. split; [reflexivity|]. subst p r. unfold at_origin in *. cbn [pp] in *. split.
  - apply vnorm_0_iff. rewrite <- (vnorm_euler a b g). now apply vnorm_0_iff.
  - intros H. apply Hr. rewrite H. apply euler_v0.
Qed.
