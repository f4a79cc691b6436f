(* C54 (translationRecurs.py): the Yukawa translation recursions *)
From Coq Require Import Lia Lra Psatz.
From Verif Require TransRecProofs.
From Verif Require Import ClebschGordanProofs Tri.
From Verif Require Export Yukawa.
From Coquelicot Require Import Coquelicot.
Open Scope R_scope.

Lemma sq_pos x : 0 < x -> 0 < sqrt x. Proof. apply sqrt_lt_R0. Qed.
Lemma is0_t x : x = 0 -> is0 x = true. Proof. intros ->. unfold is0. destruct (Req_EM_T 0 0); [reflexivity|contradiction]. Qed.
Lemma is0_f x : x <> 0 -> is0 x = false. Proof. intros H. unfold is0. destruct (Req_EM_T x 0); [contradiction|reflexivity]. Qed.
Lemma bmm_pos k : (0 <= k)%Z -> 0 < get_bnm (k + 1) (- k - 1).
Proof.
  intros H. unfold get_bnm. replace (Z.abs (- k - 1) >? k + 1)%Z with false by (symmetry; rewrite Z.gtb_ltb; apply Z.ltb_ge; lia).
  rewrite Z.sgn_pos by lia. rewrite Rmult_1_r. apply sq_pos. apply Rdiv_lt_0_compat; apply IZR_lt; nia.
Qed.
Lemma b_low l k : (0 <= k)%Z -> (l <= k)%Z -> get_bnm l (- k - 1) = 0.
Proof. intros H1 H2. unfold get_bnm. replace (Z.abs (- k - 1) >? l)%Z with true by (symmetry; rewrite Z.gtb_ltb; apply Z.ltb_lt; lia). reflexivity. Qed.
Lemma b_low' l k : (0 <= k)%Z -> (l <= k)%Z -> get_bnm (l + 1) k = 0.
Proof.
  intros H1 H2. unfold get_bnm. destruct (Z.abs k >? l + 1)%Z eqn:E; [reflexivity|]. rewrite Z.gtb_ltb in E. apply Z.ltb_ge in E.
  assert (l + 1 = k \/ l = k)%Z as [G|G] by lia; [replace ((l + 1 - k - 1) * (l + 1 - k))%Z with 0%Z by nia|replace ((l + 1 - k - 1) * (l + 1 - k))%Z with 0%Z by nia];
  unfold Rdiv; rewrite Rmult_0_l, sqrt_0; ring.
Qed.
Lemma anm_pos n m : (0 <= m <= n)%Z -> 0 < get_anm n m.
Proof.
  intros H. unfold get_anm. rewrite Z.abs_eq by lia. replace (m >? n)%Z with false by (symmetry; rewrite Z.gtb_ltb; apply Z.ltb_ge; lia).
  apply sq_pos. apply Rdiv_lt_0_compat; apply IZR_lt; nia.
Qed.
Lemma anm_0 n m : (0 <= m)%Z -> (n < m)%Z -> get_anm n m = 0.
Proof. intros H H1. unfold get_anm. rewrite Z.abs_eq by lia. replace (m >? n)%Z with true by (symmetry; rewrite Z.gtb_ltb; apply Z.ltb_lt; lia). reflexivity. Qed.
Lemma sgnR_pair i j m : sgnR (m + i) * sgnR (m + j) = sgnR (i + j).
Proof. rewrite !sgnR_add. transitivity (sgnR m * sgnR m * (sgnR i * sgnR j)); [ring|]. rewrite sgnR_sq. ring. Qed.

(* ---- C54: reciprocity, whatever the radial functions ---- *)
Lemma final_reciprocal f LMax m i j : efm_final f LMax m i j = sgnR (i + j) * efm_final f LMax m j i.
Proof.
  unfold efm_final. rewrite !sgnR_pair. destruct (i =? j)%Z eqn:E.
  - apply Z.eqb_eq in E. subst j. rewrite Z.eqb_refl. rewrite sgnR_add, sgnR_sq. ring.
  - rewrite Z.eqb_sym, E. rewrite (Z.add_comm j i). transitivity (efm f LMax m i j * 1 + efm f LMax m j i * sgnR (i + j)); [ring|]. rewrite <- (sgnR_sq (i + j)). ring.
Qed.
Theorem C54_reciprocity : forall LMax dr k y m i j,
  transl_yuk_z_RR_recurs LMax dr k = Ok y \/ transl_yuk_z_SR_recurs LMax dr k = Ok y -> y_efm y m i j = sgnR (i + j) * y_efm y m j i.
Proof.
  intros LMax dr k y m i j H. unfold transl_yuk_z_RR_recurs, transl_yuk_z_SR_recurs, yuk_recurs in H.
  destruct (LMax <? 0)%Z; [destruct H; discriminate|]. destruct (Rle_dec (k * dr) 0); (destruct H as [H|H]; [|try discriminate]; injection H as <-); cbn [y_efm]; apply final_reciprocal.
Qed.

(* ---- C54: no displacement ---- *)
Lemma ecol_zero f LMax m : f 0%nat = 1 -> (forall n, f (S n) = 0) -> (Z.of_nat m <= LMax)%Z ->
  forall l, (0 <= l <= 2 * LMax)%Z -> ecol f LMax m l = if (l =? Z.of_nat m)%Z then 1 else 0.
Proof.
  intros F0 F1. induction m as [|m IH]; intros Hm l Hl.
  - cbn [ecol]. unfold ecol0. replace ((0 <=? l) && (l <=? 2 * LMax))%bool%Z with true by (symmetry; apply andb_true_intro; split; apply Z.leb_le; lia).
    destruct (l =? Z.of_nat 0)%Z eqn:E.
    + apply Z.eqb_eq in E. subst l. cbn. rewrite F0. replace (2 * 0 + 1) with 1 by ring. rewrite sqrt_1. unfold sgnR. cbn. ring.
    + apply Z.eqb_neq in E. destruct (Z.to_nat l) as [|n] eqn:En; [cbn in E; lia|]. rewrite F1. ring.
  - cbn [ecol]. set (k := Z.of_nat m) in *. assert (Hk : (0 <= k)%Z) by (unfold k; lia). assert (B := bmm_pos k Hk).
    replace (Z.of_nat (S m)) with (k + 1)%Z by (unfold k; lia). replace (Z.of_nat (S m)) with (k + 1)%Z in Hm by (unfold k; lia).
    destruct (Z.eq_dec l (k + 1)) as [->|N].
    + rewrite Z.eqb_refl. replace ((0 <=? k + 1) && (k + 1 <? 2 * LMax - k))%bool%Z with true by (symmetry; apply andb_true_intro; split; [apply Z.leb_le|apply Z.ltb_lt]; lia).
      unfold erow. replace (k + 1 - 1 <? 0)%Z with false by (symmetry; apply Z.ltb_ge; lia). replace (k + 1 - 1)%Z with k by ring.
      rewrite !IH by lia. rewrite Z.eqb_refl. replace (k + 1 + 1 =? k)%Z with false by (symmetry; apply Z.eqb_neq; lia). field. lra.
    + replace (l =? k + 1)%Z with false by (symmetry; now apply Z.eqb_neq). destruct ((0 <=? l) && (l <? 2 * LMax - k))%bool%Z eqn:E; [|reflexivity].
      apply andb_true_iff in E. destruct E as [E1 E2]. apply Z.leb_le in E1. apply Z.ltb_lt in E2.
      assert (G1 : ecol f LMax m (erow LMax (l - 1)) * get_bnm l (- k - 1) = 0).
      { destruct (Z_le_gt_dec l k); [rewrite b_low by lia; ring|]. unfold erow. replace (l - 1 <? 0)%Z with false by (symmetry; apply Z.ltb_ge; lia).
        rewrite IH by lia. replace (l - 1 =? k)%Z with false by (symmetry; apply Z.eqb_neq; lia). ring. }
      assert (G2 : ecol f LMax m (l + 1) * get_bnm (l + 1) k = 0).
      { destruct (Z_le_gt_dec l k); [rewrite b_low' by lia; ring|]. rewrite IH by lia. replace (l + 1 =? k)%Z with false by (symmetry; apply Z.eqb_neq; lia). ring. }
      rewrite G1, G2. field. lra.
Qed.
Definition dg (n : Z) : R := if (n =? 0)%Z then 1 else -1.
Lemma fcols_zero f LMax m n : f 0%nat = 1 -> (forall n, f (S n) = 0) -> (0 <= m)%Z -> (m + Z.of_nat n <= LMax)%Z ->
  let '(c, b) := fcols f LMax m n in
  (forall l, (Z.of_nat n <= l <= 2 * (LMax - m) - Z.of_nat n)%Z -> c l = if (l =? Z.of_nat n)%Z then dg (Z.of_nat n) else 0) /\
  ((1 <= n)%nat -> forall l, (Z.of_nat n - 1 <= l <= 2 * (LMax - m) - Z.of_nat n + 1)%Z -> b l = if (l =? Z.of_nat n - 1)%Z then dg (Z.of_nat n - 1) else 0).
Proof.
  intros F0 F1 Hm. induction n as [|n IH]; intros Hn.
  - cbn [fcols]. split; [|lia]. intros l Hl. replace ((0 <=? l) && (l <=? 2 * (LMax - m)))%bool%Z with true by (symmetry; apply andb_true_intro; split; apply Z.leb_le; lia).
    rewrite (ecol_zero f) by (assumption || lia). rewrite Z2Nat.id by lia. cbn [Z.of_nat]. unfold dg. cbn. destruct (l =? 0)%Z eqn:E.
    + apply Z.eqb_eq in E. subst l. now rewrite Z.add_0_r, Z.eqb_refl.
    + apply Z.eqb_neq in E. now replace (m + l =? m)%Z with false by (symmetry; apply Z.eqb_neq; lia).
  - cbn [fcols]. specialize (IH ltac:(lia)). destruct (fcols f LMax m n) as [c b]. destruct IH as [IH1 IH2].
    set (k := Z.of_nat n) in *. assert (Hk : (0 <= k)%Z) by (unfold k; lia). replace (Z.of_nat (S n)) with (k + 1)%Z in * by (unfold k; lia).
    split.
    + intros l Hl. replace ((k + 1 <=? l) && (l <? 2 * (LMax - m) - k))%bool%Z with true by (symmetry; apply andb_true_intro; split; [apply Z.leb_le|apply Z.ltb_lt]; lia).
      assert (A := anm_pos (k + m) m ltac:(lia)). rewrite !IH1 by lia. replace (l + 1 =? k)%Z with false by (symmetry; apply Z.eqb_neq; lia).
      destruct (l =? k + 1)%Z eqn:E.
      * apply Z.eqb_eq in E. subst l. replace (k + 1 - 1)%Z with k by ring. rewrite Z.eqb_refl. destruct (Z.eq_dec k 0) as [K0|K0].
        { rewrite is0_t by (apply anm_0; lia). rewrite K0. unfold dg. cbn [Z.eqb Z.add]. rewrite K0 in A. field. cbn in *. lra. }
        { rewrite is0_f by (assert (G := anm_pos (k - 1 + m) m ltac:(lia)); lra). rewrite (IH2 ltac:(lia)) by lia. replace (k + 1 =? k - 1)%Z with false by (symmetry; apply Z.eqb_neq; lia).
          unfold dg. replace (k =? 0)%Z with false by (symmetry; apply Z.eqb_neq; lia). replace (k + 1 =? 0)%Z with false by (symmetry; apply Z.eqb_neq; lia). field. lra. }
      * apply Z.eqb_neq in E. replace (l - 1 =? k)%Z with false by (symmetry; apply Z.eqb_neq; lia). destruct (Z.eq_dec k 0) as [K0|K0].
        { rewrite is0_t by (apply anm_0; lia). field. lra. }
        { rewrite is0_f by (assert (G := anm_pos (k - 1 + m) m ltac:(lia)); lra). rewrite (IH2 ltac:(lia)) by lia. replace (l =? k - 1)%Z with false by (symmetry; apply Z.eqb_neq; lia). field. lra. }
    + intros _ l Hl. replace (k + 1 - 1)%Z with k in * by ring. apply IH1. lia.
Qed.
(* translating by nothing (dr = 0), or for an infinite range (k = 0): the identity in the first column, MINUS the identity
   elsewhere *)
Theorem C54_zero_displacement : forall LMax dr k, (0 <= LMax)%Z -> k * dr = 0 ->
  exists y, transl_yuk_z_RR_recurs LMax dr k = Ok y /\ y_len y = (LMax + 1)%Z /\
  forall m i j, (0 <= m <= LMax)%Z -> (0 <= i <= LMax - m)%Z -> (0 <= j <= LMax - m)%Z ->
    y_efm y m i j = if (i =? j)%Z then (if (i =? 0)%Z then 1 else -1) else 0.
Proof.
  intros LMax dr k HL Hk. unfold transl_yuk_z_RR_recurs, yuk_recurs. replace (LMax <? 0)%Z with false by (symmetry; apply Z.ltb_ge; lia).
  eexists. split; [reflexivity|]. split; [reflexivity|]. cbn [y_efm]. rewrite Hk. intros m i j Hm Hi Hj. set (f := fun n => sph_in n 0).
  assert (F0 : f 0%nat = 1) by (unfold f, sph_in; destruct (Req_EM_T 0 0); [reflexivity|contradiction]).
  assert (F1 : forall n, f (S n) = 0) by (intros; unfold f, sph_in; destruct (Req_EM_T 0 0); [reflexivity|contradiction]).
  assert (E : forall i j, (0 <= j <= i)%Z -> (i <= LMax - m)%Z -> efm f LMax m i j = if (i =? j)%Z then dg j else 0).
  { intros a b H1 H2. unfold efm. assert (G := fcols_zero f LMax m (Z.to_nat b) F0 F1 ltac:(lia) ltac:(lia)). destruct (fcols f LMax m (Z.to_nat b)) as [c c']. destruct G as [G _]. cbn [fst].
    rewrite G by lia. rewrite Z2Nat.id by lia. reflexivity. }
  assert (U : forall i j, (0 <= i < j)%Z -> (j <= LMax - m)%Z -> efm f LMax m i j = 0).
  { intros a b H1 H2. unfold efm. destruct (Z.to_nat b) as [|n] eqn:En; [lia|]. cbn [fcols]. destruct (fcols f LMax m n) as [c c']. cbn [fst].
    replace ((Z.of_nat n + 1 <=? a) && (a <? 2 * (LMax - m) - Z.of_nat n))%bool%Z with false; [reflexivity|]. symmetry. apply andb_false_iff. left. apply Z.leb_gt. lia. }
  unfold efm_final. rewrite !sgnR_pair. destruct (i =? j)%Z eqn:Eij.
  - apply Z.eqb_eq in Eij. subst j. rewrite E by lia. rewrite Z.eqb_refl. unfold dg. ring.
  - apply Z.eqb_neq in Eij. destruct (Z_lt_ge_dec i j).
    + rewrite U, E by lia. replace (j =? i)%Z with false by (symmetry; apply Z.eqb_neq; lia). ring.
    + rewrite E, U by lia. replace (i =? j)%Z with false by (symmetry; apply Z.eqb_neq; lia). ring.
Qed.

(* ---- C54: the sectorial coefficients ---- *)
Definition Nlm (l m : Z) : R := sqrt ((2 * IZR l + 1) * zfact (l + m) / zfact (l - m)).
Definition cm (m : Z) : R := sqrt (zfact (2 * m + 1)) / (2 ^ Z.to_nat m * zfact m).
Lemma cm_step k : (0 <= k)%Z -> cm (k + 1) * get_bnm (k + 1) (- k - 1) = cm k.
Proof.
  intros Hk. unfold get_bnm. replace (Z.abs (- k - 1) >? k + 1)%Z with false by (symmetry; rewrite Z.gtb_ltb; apply Z.ltb_ge; lia). rewrite Z.sgn_pos by lia. rewrite Rmult_1_r.
  assert (Kr : 0 <= IZR k) by (apply IZR_le; lia).
  replace (IZR ((k + 1 - (- k - 1) - 1) * (k + 1 - (- k - 1))) / IZR ((2 * (k + 1) - 1) * (2 * (k + 1) + 1))) with (2 * (IZR k + 1) / (2 * IZR k + 3)).
  2:{ repeat rewrite ?mult_IZR, ?minus_IZR, ?plus_IZR, ?opp_IZR. field. lra. }
  unfold cm. set (a := zfact (2 * k + 1)). assert (Ha : 0 < a) by apply zfact_pos.
  replace (2 * (k + 1) + 1)%Z with (2 * k + 1 + 1 + 1)%Z by ring. rewrite (zfact_succ (2 * k + 1 + 1)), (zfact_succ (2 * k + 1)), (zfact_succ k) by lia. fold a.
  replace (Z.to_nat (k + 1)) with (S (Z.to_nat k)) by lia. cbn [pow]. assert (P : 0 < 2 ^ Z.to_nat k) by (apply pow_lt; lra). assert (Zk := zfact_pos k).
  replace (IZR (2 * k + 1 + 1 + 1) * (IZR (2 * k + 1 + 1) * a)) with ((2 * IZR k + 3) * (2 * (IZR k + 1)) * a) by (repeat rewrite ?mult_IZR, ?plus_IZR; ring).
  replace (IZR (k + 1)) with (IZR k + 1) by (rewrite plus_IZR; ring).
  transitivity (sqrt ((2 * IZR k + 3) * (2 * (IZR k + 1)) * a) * sqrt (2 * (IZR k + 1) / (2 * IZR k + 3)) / (2 * 2 ^ Z.to_nat k * ((IZR k + 1) * zfact k))); [field; repeat split; lra|].
  assert (Q : 0 < 2 * (IZR k + 1) / (2 * IZR k + 3)) by (apply Rdiv_lt_0_compat; lra). rewrite <- sqrt_mult_alt by nra.
  replace ((2 * IZR k + 3) * (2 * (IZR k + 1)) * a * (2 * (IZR k + 1) / (2 * IZR k + 3))) with (a * (2 * (IZR k + 1)) ^ 2) by (field; lra).
  rewrite sqrt_mult_alt by lra. rewrite sqrt_pow2 by lra. field. repeat split; lra.
Qed.
Lemma N_both l k : (0 <= k)%Z -> (k + 1 <= l)%Z ->
  get_bnm l (- k - 1) * Nlm (l - 1) k = Nlm l (k + 1) / (2 * IZR l + 1) /\ get_bnm (l + 1) k * Nlm (l + 1) k = Nlm l (k + 1) / (2 * IZR l + 1).
Proof.
  intros Hk Hl. assert (L1 : 1 <= IZR l) by (apply IZR_le; lia).
  assert (F1 := zfact_pos (l + k)). assert (F2 := zfact_pos (l - k - 1)). assert (A1 : 0 < IZR (l + k + 1)) by (apply IZR_lt; lia). assert (A2 : 0 < IZR (l + k)) by (apply IZR_lt; lia).
  assert (T : Nlm l (k + 1) / (2 * IZR l + 1) = sqrt (IZR (l + k + 1) * zfact (l + k) / zfact (l - k - 1) / (2 * IZR l + 1))).
  { unfold Nlm. replace (l + (k + 1))%Z with (l + k + 1)%Z by ring. rewrite zfact_succ by lia. replace (l - (k + 1))%Z with (l - k - 1)%Z by ring.
    replace ((2 * IZR l + 1) * (IZR (l + k + 1) * zfact (l + k)) / zfact (l - k - 1)) with ((IZR (l + k + 1) * zfact (l + k) / zfact (l - k - 1) / (2 * IZR l + 1)) * (2 * IZR l + 1) ^ 2) by (field; lra).
    assert (0 < IZR (l + k + 1) * zfact (l + k)) by (apply Rmult_lt_0_compat; lra).
    rewrite sqrt_mult_alt by (left; repeat apply Rdiv_lt_0_compat; lra). rewrite sqrt_pow2 by lra. field. lra. }
  rewrite T. unfold get_bnm. replace (Z.abs (- k - 1) >? l)%Z with false by (symmetry; rewrite Z.gtb_ltb; apply Z.ltb_ge; lia). replace (Z.abs k >? l + 1)%Z with false by (symmetry; rewrite Z.gtb_ltb; apply Z.ltb_ge; lia).
  rewrite !Z.sgn_pos by lia. rewrite !Rmult_1_r. unfold Nlm. split.
  - rewrite <- sqrt_mult_alt by (left; apply Rdiv_lt_0_compat; apply IZR_lt; nia). f_equal.
    replace (l - 1 - k)%Z with (l - k - 1)%Z by ring. rewrite (zfact_rec (l + k)) by lia. replace (l + k - 1)%Z with (l - 1 + k)%Z by ring.
    assert (F3 := zfact_pos (l - 1 + k)). repeat rewrite ?mult_IZR, ?minus_IZR, ?plus_IZR, ?opp_IZR. field. lra.
  - rewrite <- sqrt_mult_alt.
    + f_equal.
      replace (IZR ((l + 1 - k - 1) * (l + 1 - k))) with (IZR (l - k - 1 + 1) * IZR (l - k - 1 + 1 + 1)) by (rewrite <- mult_IZR; f_equal; ring).
      replace (l + 1 + k)%Z with (l + k + 1)%Z by ring. rewrite (zfact_succ (l + k)) by lia. replace (l + 1 - k)%Z with (l - k - 1 + 1 + 1)%Z by ring. rewrite !zfact_succ by lia.
      assert (B1 : 0 < IZR (l - k - 1 + 1)) by (apply IZR_lt; lia). assert (B2 : 0 < IZR (l - k - 1 + 1 + 1)) by (apply IZR_lt; lia).
      repeat rewrite ?(mult_IZR (2 * (l + 1) - 1)). replace (IZR (2 * (l + 1) - 1)) with (2 * IZR l + 1) by (rewrite minus_IZR, mult_IZR, plus_IZR; ring). replace (IZR (2 * (l + 1) + 1)) with (2 * IZR l + 3) by (rewrite plus_IZR, mult_IZR, plus_IZR; ring).
      replace (IZR (l + 1)) with (IZR l + 1) by (rewrite plus_IZR; ring). field. lra.
    + left. assert (0 < (l + 1 - k - 1) * (l + 1 - k))%Z by nia. apply Rdiv_lt_0_compat; apply IZR_lt; nia.
Qed.
Lemma ecol_low f LMax m l : (0 <= l < Z.of_nat m)%Z -> ecol f LMax m l = 0.
Proof.
  destruct m as [|m]; [lia|]. intros H. cbn [ecol]. destruct (_ && _)%bool; [|reflexivity]. rewrite b_low, b_low' by lia. unfold Rdiv. ring.
Qed.
Lemma ecol_closed f (s x : R) LMax m : x <> 0 -> (forall l, f l - f (S (S l)) = s * (2 * INR (S l) + 1) / x * f (S l)) -> (Z.of_nat m <= LMax)%Z ->
  forall l, (Z.of_nat m <= l <= 2 * LMax - Z.of_nat m)%Z ->
  ecol f LMax m l = sgnR (l + Z.of_nat m) * s ^ m * cm (Z.of_nat m) * Nlm l (Z.of_nat m) * f (Z.to_nat l) / x ^ m.
Proof.
  intros Hx HF. induction m as [|m IH]; intros Hm l Hl.
  - cbn [ecol Z.of_nat pow]. unfold ecol0. replace ((0 <=? l) && (l <=? 2 * LMax))%bool%Z with true by (symmetry; apply andb_true_intro; split; apply Z.leb_le; lia).
    unfold cm, Nlm. cbn [Z.mul Z.add Z.to_nat pow]. rewrite zfact_0, zfact_1, sqrt_1, !Z.add_0_r, Z.sub_0_r. replace ((2 * IZR l + 1) * zfact l / zfact l) with (2 * IZR l + 1) by (field; apply zfact_neq0). field.
  - cbn [ecol]. set (k := Z.of_nat m) in *. assert (Hk : (0 <= k)%Z) by (unfold k; lia). replace (Z.of_nat (S m)) with (k + 1)%Z in * by (unfold k; lia).
    replace ((0 <=? l) && (l <? 2 * LMax - k))%bool%Z with true by (symmetry; apply andb_true_intro; split; [apply Z.leb_le|apply Z.ltb_lt]; lia).
    unfold erow. replace (l - 1 <? 0)%Z with false by (symmetry; apply Z.ltb_ge; lia). rewrite !IH by lia.
    assert (B := bmm_pos k Hk). rewrite <- (cm_step k Hk). destruct (N_both l k Hk ltac:(lia)) as [N1 N2]. assert (Lr : 1 <= IZR l) by (apply IZR_le; lia).
    assert (E : f (Z.to_nat (l - 1)) - f (Z.to_nat (l + 1)) = s * (2 * IZR l + 1) / x * f (Z.to_nat l)).
    { assert (G := HF (Z.to_nat (l - 1))). replace (S (Z.to_nat (l - 1))) with (Z.to_nat l) in G by lia. replace (S (Z.to_nat l)) with (Z.to_nat (l + 1)) in G by lia. rewrite INR_IZR_INZ, Z2Nat.id in G by lia. exact G. }
    replace (l - 1 + k)%Z with (l + k - 1)%Z by ring. replace (l + 1 + k)%Z with (l + k + 1)%Z by ring. replace (l + (k + 1))%Z with (l + k + 1)%Z by ring.
    rewrite sgnR_sub, !sgnR_add. change (sgnR 1) with (-1). cbn [pow].
    set (b := get_bnm (k + 1) (- k - 1)) in *. set (P := x ^ m). assert (HP : P <> 0) by (now apply pow_nonzero). clearbody P.
    transitivity (sgnR l * sgnR k * -1 * s ^ m * cm (k + 1) / P * (get_bnm l (- k - 1) * Nlm (l - 1) k * f (Z.to_nat (l - 1)) - get_bnm (l + 1) k * Nlm (l + 1) k * f (Z.to_nat (l + 1)))); [field; split; lra|].
    rewrite N1, N2. transitivity (sgnR l * sgnR k * -1 * s ^ m * cm (k + 1) / P * (Nlm l (k + 1) / (2 * IZR l + 1)) * (f (Z.to_nat (l - 1)) - f (Z.to_nat (l + 1)))); [ring|].
    rewrite E. field. repeat split; (assumption || lra).
Qed.
Lemma in_rec x n : x <> 0 -> sph_in n x - sph_in (S (S n)) x = 1 * (2 * INR (S n) + 1) / x * sph_in (S n) x.
Proof.
  intros Hx. unfold sph_in. destruct (Req_EM_T x 0); [contradiction|]. cbn [in_pair]. destruct (in_pair x n) as [a b]. cbn [fst]. rewrite S_INR. field. exact Hx.
Qed.
Lemma kn_rec x n : x <> 0 -> sph_kn n x - sph_kn (S (S n)) x = -1 * (2 * INR (S n) + 1) / x * sph_kn (S n) x.
Proof. intros Hx. unfold sph_kn. cbn [kn_pair]. destruct (kn_pair x n) as [a b]. cbn [fst]. rewrite S_INR. field. exact Hx. Qed.
(* the first of the two returned tables, in closed form: regular to regular *)
Theorem C54_RR_sectorial : forall LMax dr k l m, (0 <= LMax)%Z -> k * dr <> 0 -> (0 <= m <= LMax)%Z -> (0 <= l <= 2 * LMax - m)%Z ->
  exists y, transl_yuk_z_RR_recurs LMax dr k = Ok y /\
  y_eflm y l m = if (l <? m)%Z then 0 else
    (if Z.even (l + m) then 1 else -1) * sqrt (zfact (2 * m + 1)) / (2 ^ Z.to_nat m * zfact m) * sqrt ((2 * IZR l + 1) * zfact (l + m) / zfact (l - m))
    * sph_in (Z.to_nat l) (k * dr) / (k * dr) ^ Z.to_nat m.
Proof.
  intros LMax dr k l m HL Hx Hm Hl. unfold transl_yuk_z_RR_recurs, yuk_recurs. replace (LMax <? 0)%Z with false by (symmetry; apply Z.ltb_ge; lia).
  eexists. split; [reflexivity|]. cbn [y_eflm]. destruct (l <? m)%Z eqn:E.
  - apply Z.ltb_lt in E. apply ecol_low. lia.
  - apply Z.ltb_ge in E. rewrite (ecol_closed _ 1 (k * dr)); [|exact Hx|intros; now apply in_rec|lia|lia]. rewrite Z2Nat.id, pow1 by lia. unfold cm, Nlm, sgnR. field.
    repeat split; first [apply zfact_neq0 | apply pow_nonzero; (assumption || lra)].
Qed.
(* singular to regular *)
Theorem C54_SR_sectorial : forall LMax dr k l m, (0 <= LMax)%Z -> 0 < k * dr -> (0 <= m <= LMax)%Z -> (0 <= l <= 2 * LMax - m)%Z ->
  exists y, transl_yuk_z_SR_recurs LMax dr k = Ok y /\
  y_eflm y l m = if (l <? m)%Z then 0 else
    (if Z.even l then 1 else -1) * sqrt (zfact (2 * m + 1)) / (2 ^ Z.to_nat m * zfact m) * sqrt ((2 * IZR l + 1) * zfact (l + m) / zfact (l - m))
    * sph_kn (Z.to_nat l) (k * dr) / (k * dr) ^ Z.to_nat m.
Proof.
  intros LMax dr k l m HL Hx Hm Hl. unfold transl_yuk_z_SR_recurs, yuk_recurs. replace (LMax <? 0)%Z with false by (symmetry; apply Z.ltb_ge; lia).
  destruct (Rle_dec (k * dr) 0); [lra|]. eexists. split; [reflexivity|]. cbn [y_eflm]. destruct (l <? m)%Z eqn:E.
  - apply Z.ltb_lt in E. apply ecol_low. lia.
  - apply Z.ltb_ge in E. rewrite (ecol_closed _ (-1) (k * dr)); [|lra|intros; apply kn_rec; lra|lia|lia]. rewrite Z2Nat.id by lia. rewrite sgnR_add.
    assert (S1 : sgnR m * (-1) ^ Z.to_nat m = 1). { assert (G := TransRecProofs.sgnR_pow m 1 ltac:(lia)). rewrite pow1 in G. exact G. }
    transitivity (sgnR l * (sgnR m * (-1) ^ Z.to_nat m) * cm m * Nlm l m * sph_kn (Z.to_nat l) (k * dr) / (k * dr) ^ Z.to_nat m).
    { unfold Rdiv. ring. }
    rewrite S1. unfold cm, Nlm, sgnR. field. repeat split; first [apply zfact_neq0 | apply pow_nonzero; lra].
Qed.
Theorem C54_errors : forall LMax dr k,
  ((LMax < 0)%Z -> transl_yuk_z_RR_recurs LMax dr k = Err ValueError /\ transl_yuk_z_SR_recurs LMax dr k = Err ValueError) /\
  ((0 <= LMax)%Z -> k * dr <= 0 -> transl_yuk_z_SR_recurs LMax dr k = Err NotFinite).
Proof.
  intros LMax dr k. unfold transl_yuk_z_RR_recurs, transl_yuk_z_SR_recurs, yuk_recurs. split.
  - intros H. replace (LMax <? 0)%Z with true by (symmetry; apply Z.ltb_lt; lia). now split.
  - intros H H1. replace (LMax <? 0)%Z with false by (symmetry; apply Z.ltb_ge; lia). destruct (Rle_dec (k * dr) 0); [reflexivity|contradiction].
Qed.

(* ---- C54: the opposite displacement transposes the matrices ---- *)
Lemma in_parity n x : sph_in n (- x) = (-1) ^ n * sph_in n x.
Proof.
  unfold sph_in. destruct (Req_EM_T (- x) 0) as [E|E], (Req_EM_T x 0) as [F|F]; try (exfalso; lra).
  - destruct n; cbn; ring.
  - assert (Sh : sinh (- x) = - sinh x) by (unfold sinh; rewrite Ropp_involutive; field). assert (Ch : cosh (- x) = cosh x) by (unfold cosh; rewrite Ropp_involutive; field).
    assert (G : forall n, fst (in_pair (- x) n) = (-1) ^ n * fst (in_pair x n) /\ snd (in_pair (- x) n) = (-1) ^ S n * snd (in_pair x n)).
    { induction n0 as [|n0 [I1 I2]]; cbn [in_pair].
      - cbn [fst snd]. rewrite Sh, Ch. cbn [pow]. split; field; lra.
      - destruct (in_pair (- x) n0) as [a b], (in_pair x n0) as [a' b']. cbn [fst snd] in *. split; [exact I2|]. rewrite I1, I2. cbn [pow]. field. lra. }
    apply G.
Qed.
Lemma ecol_parity f g LMax m l : (forall n, g n = (-1) ^ n * f n) -> (Z.of_nat m <= LMax)%Z -> (0 <= l <= 2 * LMax)%Z -> ecol g LMax m l = sgnR (l + Z.of_nat m) * ecol f LMax m l.
Proof.
  intros HG. revert l. induction m as [|m IH]; intros l Hm Hl.
  - cbn [ecol Z.of_nat]. unfold ecol0. destruct ((0 <=? l) && (l <=? 2 * LMax))%bool%Z; [|ring]. rewrite HG, Z.add_0_r.
    assert (S1 : (-1) ^ Z.to_nat l = sgnR l). { assert (G := TransRecProofs.sgnR_pow l 1 ltac:(lia)). rewrite pow1 in G. change (sgnR l * (-1) ^ Z.to_nat l = 1) in G. transitivity (sgnR l * (sgnR l * (-1) ^ Z.to_nat l)); [rewrite <- Rmult_assoc, sgnR_sq; ring|]. rewrite G. ring. }
    rewrite S1. ring.
  - cbn [ecol]. set (k := Z.of_nat m) in *. assert (Hk : (0 <= k)%Z) by (unfold k; lia). replace (Z.of_nat (S m)) with (k + 1)%Z in * by (unfold k; lia).
    destruct ((0 <=? l) && (l <? 2 * LMax - k))%bool%Z eqn:E; [|ring]. apply andb_true_iff in E. destruct E as [E1 E2]. apply Z.leb_le in E1. apply Z.ltb_lt in E2.
    assert (G1 : ecol g LMax m (erow LMax (l - 1)) * get_bnm l (- k - 1) = sgnR (l + (k + 1)) * (ecol f LMax m (erow LMax (l - 1)) * get_bnm l (- k - 1))).
    { destruct (Z_le_gt_dec l k); [rewrite b_low by lia; ring|]. unfold erow. replace (l - 1 <? 0)%Z with false by (symmetry; apply Z.ltb_ge; lia).
      rewrite IH by lia. rewrite !sgnR_add, sgnR_sub. change (sgnR 1) with (-1). ring. }
    rewrite (IH (l + 1)%Z) by lia. rewrite G1. rewrite !sgnR_add. change (sgnR 1) with (-1). unfold Rdiv. ring.
Qed.
Lemma fcols_parity f g LMax m n : (forall n, g n = (-1) ^ n * f n) -> (0 <= m <= LMax)%Z ->
  forall l, (0 <= l)%Z -> fst (fcols g LMax m n) l = sgnR (l + Z.of_nat n) * fst (fcols f LMax m n) l /\ snd (fcols g LMax m n) l = sgnR (l + Z.of_nat n + 1) * snd (fcols f LMax m n) l.
Proof.
  intros HG Hm. induction n as [|n IH]; intros l Hl.
  - cbn [fcols fst snd Z.of_nat]. split; [|ring]. destruct ((0 <=? l) && (l <=? 2 * (LMax - m)))%bool%Z eqn:E; [|ring]. apply andb_true_iff in E. destruct E as [E1 E2]. apply Z.leb_le in E2.
    rewrite (ecol_parity f) by (assumption || lia). rewrite Z2Nat.id, Z.add_0_r by lia. rewrite !sgnR_add. f_equal. transitivity (sgnR m * sgnR m * sgnR l); [ring|]. rewrite sgnR_sq. ring.
  - cbn [fcols]. destruct (fcols g LMax m n) as [c b], (fcols f LMax m n) as [c' b']. cbn [fst snd] in *. replace (Z.of_nat (S n)) with (Z.of_nat n + 1)%Z by lia. split.
    + destruct ((Z.of_nat n + 1 <=? l) && (l <? 2 * (LMax - m) - Z.of_nat n))%bool%Z eqn:E; [|ring]. apply andb_true_iff in E. destruct E as [E1 E2]. apply Z.leb_le in E1.
      destruct (IH (l + 1)%Z ltac:(lia)) as [-> _]. destruct (IH (l - 1)%Z ltac:(lia)) as [-> _]. destruct (IH l ltac:(lia)) as [_ ->].
      rewrite !sgnR_add, !sgnR_sub. change (sgnR 1) with (-1). destruct (is0 _); unfold Rdiv; ring.
    + destruct (IH l Hl) as [-> _]. rewrite !sgnR_add. change (sgnR 1) with (-1). ring.
Qed.
Theorem C54_opposite_displacement_transposes : forall LMax dr k y y' m i j, (0 <= m <= LMax)%Z -> (0 <= i)%Z -> (0 <= j)%Z ->
  transl_yuk_z_RR_recurs LMax dr k = Ok y -> transl_yuk_z_RR_recurs LMax (- dr) k = Ok y' -> y_efm y' m i j = y_efm y m j i.
Proof.
  intros LMax dr k y y' m i j Hm Hi Hj H H'. unfold transl_yuk_z_RR_recurs, yuk_recurs in *. destruct (LMax <? 0)%Z; [discriminate|]. injection H as <-. injection H' as <-. cbn [y_efm].
  rewrite (final_reciprocal _ LMax m j i). replace (k * - dr) with (- (k * dr)) by ring. set (f := fun n => sph_in n (k * dr)). set (g := fun n => sph_in n (- (k * dr))).
  assert (HG : forall n, g n = (-1) ^ n * f n) by (intros; apply in_parity).
  assert (E : forall i j, (0 <= i)%Z -> (0 <= j)%Z -> efm g LMax m i j = sgnR (i + j) * efm f LMax m i j).
  { intros a b Ha Hb. unfold efm. destruct (fcols_parity f g LMax m (Z.to_nat b) HG Hm a Ha) as [-> _]. now rewrite Z2Nat.id by lia. }
  unfold efm_final. rewrite !sgnR_pair, !E by lia. rewrite (Z.add_comm j i). destruct (i =? j)%Z eqn:Eij; [|ring]. apply Z.eqb_eq in Eij. subst j. rewrite sgnR_add, sgnR_sq. ring.
Qed.

(* ---- C54: the dipole-to-dipole entry ---- *)
Lemma sqrt_frac a b : 0 <= a -> 0 < b -> sqrt (a / b) = sqrt a / sqrt b. Proof. intros. now rewrite sqrt_div. Qed.
Lemma dipole_entry f LMax : (1 <= LMax)%Z -> efm_final f LMax 0 1 1 = 2 * f 2%nat - f 0%nat.
Proof.
  intros HL. unfold efm_final. rewrite Z.eqb_refl. replace (efm f LMax 0 1 1) with (2 * f 2%nat - f 0%nat); [cbn; ring|].
  unfold efm. change (Z.to_nat 1) with 1%nat. cbn [fcols fst Z.of_nat]. replace ((0 + 1 <=? 1) && (1 <? 2 * (LMax - 0) - 0))%bool%Z with true by (symmetry; apply andb_true_intro; split; [apply Z.leb_le|apply Z.ltb_lt]; lia).
  rewrite is0_t by (apply anm_0; lia).
  replace ((0 <=? 1 + 1) && (1 + 1 <=? 2 * (LMax - 0)))%bool%Z with true by (symmetry; apply andb_true_intro; split; apply Z.leb_le; lia).
  replace ((0 <=? 1 - 1) && (1 - 1 <=? 2 * (LMax - 0)))%bool%Z with true by (symmetry; apply andb_true_intro; split; apply Z.leb_le; lia).
  change (Z.to_nat 0) with 0%nat. cbn [ecol]. unfold ecol0.
  replace ((0 <=? 0 + (1 + 1)) && (0 + (1 + 1) <=? 2 * LMax))%bool%Z with true by (symmetry; apply andb_true_intro; split; apply Z.leb_le; lia).
  replace ((0 <=? 0 + (1 - 1)) && (0 + (1 - 1) <=? 2 * LMax))%bool%Z with true by (symmetry; apply andb_true_intro; split; apply Z.leb_le; lia).
  change (Z.to_nat (0 + (1 + 1))) with 2%nat. change (Z.to_nat (0 + (1 - 1))) with 0%nat. change (sgnR (0 + (1 + 1))) with 1. change (sgnR (0 + (1 - 1))) with 1.
  change (IZR (0 + (1 + 1))) with 2. change (IZR (0 + (1 - 1))) with 0. replace (2 * 0 + 1) with 1 by ring. rewrite sqrt_1. replace (2 * 2 + 1) with 5 by ring.
  replace (get_anm (1 + 0) 0) with (2 / (sqrt 3 * sqrt 5)). 2:{ unfold get_anm. cbn. rewrite sqrt_frac by lra. replace (sqrt 15) with (sqrt 3 * sqrt 5) by (rewrite <- sqrt_mult_alt by lra; f_equal; ring). replace (sqrt 4) with 2 by (replace 4 with (2 * 2) by ring; rewrite sqrt_square; lra). reflexivity. }
  replace (get_anm (1 - 1 + 0) 0) with (1 / sqrt 3). 2:{ unfold get_anm. cbn. rewrite sqrt_frac by lra. now rewrite sqrt_1. }
  replace (get_anm (0 + 0) 0) with (1 / sqrt 3). 2:{ unfold get_anm. cbn. rewrite sqrt_frac by lra. now rewrite sqrt_1. }
  assert (0 < sqrt 3) by (apply sqrt_lt_R0; lra). assert (0 < sqrt 5) by (apply sqrt_lt_R0; lra). field. lra.
Qed.
Lemma sinh_pos x : 0 < x -> 0 < sinh x.
Proof. intros H. unfold sinh. assert (exp (- x) < exp x) by (apply exp_increasing; lra). lra. Qed.
(* The field of a unit dipole along z is i_1(k r) cos(theta), with slope k/3 along z at its own centre; seen from a centre
   displaced by dr its slope there is k i_1'(k dr).  Their ratio 3 i_1'(k dr) is the dipole-to-dipole coefficient; the
   returned one differs from it by 2 i_0 > 0, so it is wrong for every displacement. *)
Theorem C54_dipole_entry_wrong : forall LMax dr k, (1 <= LMax)%Z -> k * dr <> 0 ->
  exists y d, transl_yuk_z_RR_recurs LMax dr k = Ok y /\ is_derive (fun x : R => sph_in 1 x) (k * dr) d /\
  y_efm y 0 1 1 = 3 * d - 2 * sph_in 0 (k * dr) /\ 0 < sph_in 0 (k * dr).
Proof.
  intros LMax dr k HL Hx. set (x := k * dr) in *. unfold transl_yuk_z_RR_recurs, yuk_recurs. replace (LMax <? 0)%Z with false by (symmetry; apply Z.ltb_ge; lia).
  exists (mkyuk (fun l m : Z => ecol (fun n : nat => sph_in n (k * dr)) LMax (Z.to_nat m) l) (LMax + 1) (efm_final (fun n : nat => sph_in n (k * dr)) LMax)), ((sph_in 0 x + 2 * sph_in 2 x) / 3).
  split; [reflexivity|]. split; [|split].
  - apply (is_derive_ext_loc (fun x : R => (x * cosh x - sinh x) / x ^ 2)).
    { exists (mkposreal (Rabs x) (Rabs_pos_lt x Hx)). intros y Hy. unfold sph_in. destruct (Req_EM_T y 0) as [->|N]; [exfalso|reflexivity].
      unfold ball, AbsRing_ball, abs, minus, plus, opp in Hy. cbn in Hy. unfold AbsRing_ball, abs, minus, plus, opp in Hy. cbn in Hy. replace (0 + - x) with (- x) in Hy by ring. rewrite Rabs_Ropp in Hy. lra. }
    assert (E : (sph_in 0 x + 2 * sph_in 2 x) / 3 = (x * sinh x * x ^ 2 - (x * cosh x - sinh x) * (2 * x)) / x ^ 4).
    { unfold sph_in. destruct (Req_EM_T x 0); [contradiction|]. cbn. field. exact Hx. }
    rewrite E. unfold sinh, cosh. auto_derive; [apply Rmult_integral_contrapositive_currified; lra|]. field. exact Hx.
  - cbn [y_efm]. rewrite dipole_entry by assumption. fold x. field.
  - unfold sph_in. destruct (Req_EM_T x 0); [contradiction|]. cbn [in_pair fst]. destruct (Rtotal_order x 0) as [N|[N|N]]; [|contradiction|].
    + assert (G := sinh_pos (- x) ltac:(lra)). replace (sinh (- x)) with (- sinh x) in G by (unfold sinh; rewrite Ropp_involutive; field). replace (sinh x / x) with ((- sinh x) / (- x)) by (field; lra). apply Rdiv_lt_0_compat; lra.
    + apply Rdiv_lt_0_compat; [now apply sinh_pos|lra].
Qed.

(* ---- C54: what determines the matrices ---- *)
Lemma efm_upper f LMax m i j : (0 <= i < j)%Z -> efm f LMax m i j = 0.
Proof.
  intros H. unfold efm. replace (Z.to_nat j) with (S (Z.to_nat (j - 1))) by lia. cbn [fcols]. destruct (fcols f LMax m (Z.to_nat (j - 1))) as [c b]. cbn [fst]. rewrite Z2Nat.id by lia.
  replace (j - 1 + 1 <=? i)%Z with false by (symmetry; apply Z.leb_gt; lia). reflexivity.
Qed.
Lemma final_lower f LMax m i j : (0 <= j <= i)%Z -> efm_final f LMax m i j = efm f LMax m i j.
Proof.
  intros H. unfold efm_final. destruct (i =? j)%Z eqn:E; [apply Z.eqb_eq in E; subst j; ring|]. apply Z.eqb_neq in E. rewrite (efm_upper f LMax m j i) by lia. ring.
Qed.
Lemma fcols_snd f LMax m n : (0 < n)%nat -> snd (fcols f LMax m n) = fst (fcols f LMax m (pred n)).
Proof. intros H. destruct n as [|n]; [lia|]. cbn [pred fcols]. now destruct (fcols f LMax m n). Qed.
Definition zcoef (m n : Z) : R := sqrt (IZR ((n + 2 * m + 1) * (n + 1)) / IZR ((2 * (n + m) + 1) * (2 * (n + m) + 3))).
Lemma anm_zcoef m n : (0 <= m)%Z -> (0 <= n)%Z -> get_anm (n + m) m = zcoef m n.
Proof.
  intros Hm Hn. unfold get_anm, zcoef. rewrite Z.abs_eq by lia. replace (m >? n + m)%Z with false by (symmetry; rewrite Z.gtb_ltb; apply Z.ltb_ge; lia).
  replace (n + m + m + 1)%Z with (n + 2 * m + 1)%Z by ring. replace (n + m - m + 1)%Z with (n + 1)%Z by ring. reflexivity.
Qed.
Lemma zcoef_pos m n : (0 <= m)%Z -> (0 <= n)%Z -> 0 < zcoef m n.
Proof. intros Hm Hn. apply sqrt_lt_R0, Rdiv_lt_0_compat; apply IZR_lt; nia. Qed.
(* With the first column (the sectorial entries above) and reciprocity these relations fix every entry *)
Theorem C54_columns : forall LMax dr k y m, transl_yuk_z_RR_recurs LMax dr k = Ok y \/ transl_yuk_z_SR_recurs LMax dr k = Ok y -> (0 <= m <= LMax)%Z ->
  let A n := sqrt (IZR ((n + 2 * m + 1) * (n + 1)) / IZR ((2 * (n + m) + 1) * (2 * (n + m) + 3))) in
  (forall l, (0 <= l <= LMax - m)%Z -> y_efm y m l 0 = y_eflm y (m + l) m) /\
  (forall l, (1 <= l < LMax - m)%Z -> A 0%Z * y_efm y m l 1 = A l * y_efm y m (l + 1) 0 - A (l - 1)%Z * y_efm y m (l - 1) 0) /\
  (forall l n, (1 <= n < l)%Z -> (l < LMax - m)%Z ->
    A n * y_efm y m l (n + 1) = A (l - 1)%Z * y_efm y m (l - 1) n - A l * y_efm y m (l + 1) n + A (n - 1)%Z * y_efm y m l (n - 1)).
Proof.
  intros LMax dr k y m H Hm A. assert (HF : exists f, y_eflm y = (fun l m => ecol f LMax (Z.to_nat m) l) /\ y_efm y = efm_final f LMax).
  { unfold transl_yuk_z_RR_recurs, transl_yuk_z_SR_recurs, yuk_recurs in H. destruct (LMax <? 0)%Z; [destruct H; discriminate|].
    destruct (Rle_dec (k * dr) 0); (destruct H as [H|H]; [|try discriminate]; injection H as <-); eexists; split; reflexivity. }
  destruct HF as (f & -> & ->). split; [|split].
  - intros l Hl. rewrite final_lower by lia. unfold efm. change (Z.to_nat 0) with 0%nat. cbn [fcols fst].
    replace ((0 <=? l) && (l <=? 2 * (LMax - m)))%bool%Z with true by (symmetry; apply andb_true_intro; split; apply Z.leb_le; lia). reflexivity.
  - intros l Hl. rewrite !final_lower by lia. unfold efm. change (Z.to_nat 1) with 1%nat. change (Z.to_nat 0) with 0%nat.
    change (fcols f LMax m 1) with (let '(c, b) := fcols f LMax m 0 in let nz := Z.of_nat 0 in
      (fun l => if ((nz + 1 <=? l) && (l <? 2 * (LMax - m) - nz))%bool%Z then
           let anm := get_anm (nz + m) m in let alm := get_anm (l + m) m in let almm := get_anm (l - 1 + m) m in let anmm := get_anm (nz - 1 + m) m in
           if is0 anmm then (alm * c (l + 1)%Z - almm * c (l - 1)%Z) / anm else (almm * c (l - 1)%Z - alm * c (l + 1)%Z + anmm * b l) / anm
         else 0, c)).
    destruct (fcols f LMax m 0) as [c b]. cbn [fst Z.of_nat]. cbv zeta. replace ((0 + 1 <=? l) && (l <? 2 * (LMax - m) - 0))%bool%Z with true by (symmetry; apply andb_true_intro; split; [apply Z.leb_le|apply Z.ltb_lt]; lia).
    rewrite is0_t by (apply anm_0; lia). rewrite !anm_zcoef by lia. change (A 0%Z) with (zcoef m 0). change (A l) with (zcoef m l). change (A (l - 1)%Z) with (zcoef m (l - 1)).
    assert (P := zcoef_pos m 0 ltac:(lia) ltac:(lia)). field. lra.
  - intros l n Hn Hl. rewrite !final_lower by lia. unfold efm. replace (Z.to_nat (n + 1)) with (S (Z.to_nat n)) by lia. replace (Z.to_nat (n - 1)) with (pred (Z.to_nat n)) by lia.
    rewrite <- fcols_snd by lia. cbn [fcols]. destruct (fcols f LMax m (Z.to_nat n)) as [c b]. cbn [fst snd]. rewrite Z2Nat.id by lia.
    replace ((n + 1 <=? l) && (l <? 2 * (LMax - m) - n))%bool%Z with true by (symmetry; apply andb_true_intro; split; [apply Z.leb_le|apply Z.ltb_lt]; lia).
    rewrite !anm_zcoef by lia. change (A n) with (zcoef m n). change (A l) with (zcoef m l). change (A (l - 1)%Z) with (zcoef m (l - 1)). change (A (n - 1)%Z) with (zcoef m (n - 1)).
    assert (P := zcoef_pos m n ltac:(lia) ltac:(lia)). assert (P' := zcoef_pos m (n - 1) ltac:(lia) ltac:(lia)). rewrite is0_f by lra. field. lra.
Qed.

(* ---- concrete cases ---- *)
Example C54_case_zero : exists y, transl_yuk_z_RR_recurs 2 0 3 = Ok y /\ y_efm y 0 0 0 = 1 /\ y_efm y 0 1 1 = -1 /\ y_efm y 1 1 1 = -1 /\ y_efm y 0 2 1 = 0.
Proof.
  destruct (C54_zero_displacement 2 0 3 ltac:(lia) ltac:(ring)) as (y & E & _ & H). exists y. split; [exact E|]. rewrite !H by lia. repeat split; reflexivity.
Qed.
Example C54_case_SR : exists y, transl_yuk_z_SR_recurs 3 2 (1 / 2) = Ok y /\ y_eflm y 0 0 = PI / 2 * exp (- 1).
Proof.
  destruct (C54_SR_sectorial 3 2 (1 / 2) 0 0 ltac:(lia) ltac:(lra) ltac:(lia) ltac:(lia)) as (y & E & H). exists y. split; [exact E|]. rewrite H. cbn [Z.ltb Z.even Z.add Z.mul Z.sub Z.opp Z.compare Z.to_nat pow].
  rewrite zfact_0, zfact_1. replace (1 / 2 * 2) with 1 by field. unfold sph_kn. cbn [kn_pair fst]. replace ((2 * 0 + 1) * 1 / 1) with 1 by field. rewrite sqrt_1. change (- (1)) with (-1). field.
Qed.
Print Assumptions C54_zero_displacement.
Print Assumptions C54_RR_sectorial.
Print Assumptions C54_dipole_entry_wrong.
Print Assumptions C54_columns.
