(* Proofs about ClebschGordan.v *)
From Verif Require Export ClebschGordan.
From Coq Require Import Psatz Bool.
Open Scope R_scope.

Lemma rsum_empty a b f : (b <= a)%Z -> rsum a b f = 0.
Proof. intros. unfold rsum. now replace (Z.to_nat (b - a)) with O by lia. Qed.
Lemma rsum_ext a b f g : (forall k, (a <= k < b)%Z -> f k = g k) -> rsum a b f = rsum a b g.
Proof.
  intros H. unfold rsum. assert (G : forall i, In i (seq 0 (Z.to_nat (b - a))) -> f (a + Z.of_nat i)%Z = g (a + Z.of_nat i)%Z).
  { intros i Hi. apply in_seq in Hi. apply H. lia. }
  revert G. generalize (seq 0 (Z.to_nat (b - a))). induction l; intros G; simpl; [reflexivity|].
  rewrite G by now left. rewrite IHl by (intros; apply G; now right). reflexivity.
Qed.
Lemma rsum_scal a b c f : rsum a b (fun k => c * f k) = c * rsum a b f.
Proof. unfold rsum. generalize (seq 0 (Z.to_nat (b - a))). induction l; simpl; [ring|]. rewrite IHl. ring. Qed.
Lemma rsum_zsum a b f : RtoC (rsum a b f) = zsum a b (fun k => RtoC (f k)).
Proof.
  unfold rsum. destruct (Z_le_gt_dec b a) as [H|H].
  - replace (Z.to_nat (b - a)) with O by lia. now rewrite zsum_empty.
  - remember (Z.to_nat (b - a)) as n. replace b with (a + Z.of_nat n)%Z by lia. clear.
    induction n as [|n IH].
    + rewrite zsum_empty by lia. reflexivity.
    + rewrite seq_S, fold_right_app. replace (a + Z.of_nat (S n))%Z with (a + Z.of_nat n + 1)%Z by lia.
      rewrite zsum_last by lia. rewrite <- IH, <- RtoC_plus. f_equal. cbn [fold_right Nat.add].
      generalize (f (a + Z.of_nat n)%Z). generalize (seq 0 n). clear. induction l; intros r; simpl; [ring|]. rewrite IHl. ring.
Qed.
Lemma rsum_one a f : rsum a (a + 1) f = f a.
Proof. assert (E := rsum_zsum a (a + 1) f). rewrite zsum_one in E. now injection E. Qed.
Lemma rsum_refl d a b f : rsum a b f = rsum (d - b + 1) (d - a + 1) (fun k => f (d - k)%Z).
Proof.
  assert (E : RtoC (rsum a b f) = RtoC (rsum (d - b + 1) (d - a + 1) (fun k => f (d - k)%Z))).
  { rewrite !rsum_zsum. rewrite (zsum_rev a b), (zsum_shift d). 
    replace (1 - b + d)%Z with (d - b + 1)%Z by ring. replace (1 - a + d)%Z with (d - a + 1)%Z by ring.
    apply zsum_ext. intros k _. f_equal. f_equal. ring. }
  now injection E.
Qed.
Lemma sgnR_C k : RtoC (sgnR k) = sgnC k.
Proof. unfold sgnR, sgnC. destruct (Z.even k); reflexivity. Qed.
Lemma sgnR_add a b : sgnR (a + b) = sgnR a * sgnR b.
Proof. assert (E := sgnC_add a b). rewrite <- !sgnR_C, <- RtoC_mult in E. now injection E. Qed.
Lemma sgnR_sub a b : sgnR (a - b) = sgnR a * sgnR b.
Proof. assert (E := sgnC_sub a b). rewrite <- !sgnR_C, <- RtoC_mult in E. now injection E. Qed.
Lemma sgnR_opp a : sgnR (- a) = sgnR a.
Proof. unfold sgnR. now rewrite Z.even_opp. Qed.
Lemma sgnR_sq a : sgnR a * sgnR a = 1.
Proof. unfold sgnR. destruct (Z.even a); ring. Qed.

Lemma exp_gl n : exp (gammaln (n + 1)) = zfact n.
Proof. unfold gammaln. rewrite exp_ln by apply zfact_pos. f_equal. ring. Qed.
Ltac fpos := repeat match goal with |- context [zfact ?n] =>
  lazymatch goal with H : 0 < zfact n |- _ => fail | _ => assert (0 < zfact n) by apply zfact_pos end end.

(* factorial form *)
Definition cgA (j1 j2 J : Z) : R :=
  (2 * IZR J + 1) * (zfact (J + j1 - j2) * zfact (J - j1 + j2) * zfact (j1 + j2 - J) / zfact (j1 + j2 + J + 1)).
Definition cgB (j1 j2 m1 m2 J M : Z) : R :=
  zfact (J + M) * zfact (J - M) * (zfact (j1 - m1) * zfact (j1 + m1)) * (zfact (j2 - m2) * zfact (j2 + m2)).
Definition cgT (j1 j2 m1 m2 J k : Z) : R :=
  sgnR k / (zfact k * zfact (j1 + j2 - J - k) * (zfact (j1 - m1 - k) * zfact (j2 + m2 - k))
            * (zfact (J - j2 + m1 + k) * zfact (J - j1 - m2 + k))).
Definition cgS (j1 j2 m1 m2 J : Z) : R :=
  rsum (cg_kmin j1 j2 m1 m2 J) (cg_kmax j1 j2 m1 m2 J + 1) (cgT j1 j2 m1 m2 J).
Lemma fac1_A j1 j2 J : cg_fac1 j1 j2 J = sqrt (cgA j1 j2 J).
Proof.
  unfold cg_fac1, cgA. do 2 f_equal. unfold Rminus. rewrite !exp_plus, exp_Ropp.
  replace (j1 + j2 + J + 2)%Z with (j1 + j2 + J + 1 + 1)%Z by ring. rewrite !exp_gl. unfold Rdiv. ring.
Qed.
Lemma body_factorial j1 j2 m1 m2 J M : cg_body j1 j2 m1 m2 J M = sqrt (cgA j1 j2 J) * sqrt (cgB j1 j2 m1 m2 J M) * cgS j1 j2 m1 m2 J.
Proof.
  unfold cg_body. rewrite fac1_A. f_equal; [f_equal|].
  - unfold cgB. rewrite !exp_plus, !exp_gl. reflexivity.
  - unfold cgS. apply rsum_ext. intros k _. unfold cgT. rewrite !exp_plus, !exp_gl. reflexivity.
Qed.
Lemma zcomb_ok n k : (0 <= k <= n)%Z -> zcomb n k = zfact n / (zfact k * zfact (n - k)).
Proof.
  intros H. unfold zcomb. rewrite (proj2 (Z.ltb_ge k 0)), (proj2 (Z.ltb_ge n 0)), (proj2 (Z.ltb_ge n k)) by lia. reflexivity.
Qed.
(* guards as propositions *)
Definition cg_ok (j1 j2 m1 m2 J M : Z) : Prop :=
  (Z.abs m1 <= j1 /\ Z.abs m2 <= j2 /\ Z.abs M <= J /\ J <= j1 + j2 /\ Z.abs (j1 - j2) <= J)%Z.
Lemma guard_false j1 j2 m1 m2 J M : cg_guard j1 j2 m1 m2 J M = false <-> cg_ok j1 j2 m1 m2 J M.
Proof.
  unfold cg_guard, cg_ok. rewrite !orb_false_iff, Z.gtb_ltb, !Z.ltb_ge. tauto.
Qed.
Lemma guard_true j1 j2 m1 m2 J M : ~ cg_ok j1 j2 m1 m2 J M -> cg_guard j1 j2 m1 m2 J M = true.
Proof. intros H. destruct (cg_guard j1 j2 m1 m2 J M) eqn:E; [reflexivity|]. apply guard_false in E. contradiction. Qed.

Lemma body2_eq j1 j2 m1 m2 J M : cg_ok j1 j2 m1 m2 J M -> (0 <= M)%Z ->
  cg_body2 j1 j2 m1 m2 J M = cg_body j1 j2 m1 m2 J M.
Proof.
  intros (H1 & H2 & H3 & H4 & H5) HM. rewrite body_factorial. unfold cg_body2. rewrite fac1_A.
  set (a := zfact (j1 + j2 - J)). set (b := zfact (J + j1 - j2)). set (c := zfact (J - j1 + j2)).
  assert (Ha : 0 < a) by apply zfact_pos. assert (Hb : 0 < b) by apply zfact_pos. assert (Hc : 0 < c) by apply zfact_pos.
  assert (Es : rsum (Z.max 0 (Z.max (j2 - J - m1) (j1 - J + m2))) (cg_kmax j1 j2 m1 m2 J + 1) (fun k =>
     zcomb (j1 + j2 - J) k * zcomb (j1 - j2 + J) (j1 - m1 - k) * zcomb (- j1 + j2 + J) (j2 + m2 - k) * sgnR k)
     = a * b * c * cgS j1 j2 m1 m2 J).
  { unfold cgS. replace (Z.max 0 (Z.max (j2 - J - m1) (j1 - J + m2))) with (cg_kmin j1 j2 m1 m2 J) by (unfold cg_kmin; lia).
    rewrite <- rsum_scal. apply rsum_ext. intros k Hk. unfold cg_kmin, cg_kmax in Hk.
    rewrite !zcomb_ok by lia. unfold cgT.
    replace (j1 - j2 + J)%Z with (J + j1 - j2)%Z by ring. replace (- j1 + j2 + J)%Z with (J - j1 + j2)%Z by ring.
    replace (J + j1 - j2 - (j1 - m1 - k))%Z with (J - j2 + m1 + k)%Z by ring.
    replace (J - j1 + j2 - (j2 + m2 - k))%Z with (J - j1 - m2 + k)%Z by ring. fold a b c.
    fpos. field. repeat split; apply Rgt_not_eq; assumption. }
  rewrite Es.
  assert (Ef : sqrt (zcomb (2 * j1) (j1 - j2 + J) * zcomb (2 * j2) (j1 + j2 - J) * zcomb (2 * J) (- j1 + j2 + J)
                    / (zcomb (2 * j1) (j1 + m1) * zcomb (2 * j2) (j2 + m2) * zcomb (2 * J) (J + M)))
     = sqrt (cgB j1 j2 m1 m2 J M) / (a * b * c)).
  { rewrite !zcomb_ok by lia.
    replace (j1 - j2 + J)%Z with (J + j1 - j2)%Z by ring. replace (- j1 + j2 + J)%Z with (J - j1 + j2)%Z by ring.
    replace (2 * j1 - (J + j1 - j2))%Z with (j1 + j2 - J)%Z by ring.
    replace (2 * j2 - (j1 + j2 - J))%Z with (J - j1 + j2)%Z by ring.
    replace (2 * J - (J - j1 + j2))%Z with (J + j1 - j2)%Z by ring.
    replace (2 * j1 - (j1 + m1))%Z with (j1 - m1)%Z by ring.
    replace (2 * j2 - (j2 + m2))%Z with (j2 - m2)%Z by ring.
    replace (2 * J - (J + M))%Z with (J - M)%Z by ring. fold a b c.
    replace (zfact (2 * j1) / (b * a) * (zfact (2 * j2) / (a * c)) * (zfact (2 * J) / (c * b)) /
      (zfact (2 * j1) / (zfact (j1 + m1) * zfact (j1 - m1)) * (zfact (2 * j2) / (zfact (j2 + m2) * zfact (j2 - m2))) * (zfact (2 * J) / (zfact (J + M) * zfact (J - M)))))
      with (cgB j1 j2 m1 m2 J M / ((a * b * c) ^ 2)).
    - rewrite sqrt_div_alt by (apply pow_lt; repeat apply Rmult_lt_0_compat; assumption). f_equal. apply sqrt_pow2.
      apply Rlt_le. repeat apply Rmult_lt_0_compat; assumption.
    - unfold cgB. fpos. field. repeat split; apply Rgt_not_eq; assumption. }
  rewrite Ef. field. repeat split; apply Rgt_not_eq; assumption.
Qed.
Lemma flip_ok j1 j2 m1 m2 J M : cg_ok j1 j2 m1 m2 J M -> cg_ok j1 j2 (zsgnflip M m1) (zsgnflip M m2) J (zsgnflip M M) /\ (0 <= zsgnflip M M)%Z.
Proof. unfold cg_ok, zsgnflip. destruct (Z.ltb_spec M 0); lia. Qed.
Lemma cg_agree j1 j2 m1 m2 J M : cgCoeff2 j1 j2 m1 m2 J M = cgCoeff j1 j2 m1 m2 J M.
Proof.
  unfold cgCoeff, cgCoeff2. destruct (cg_guard j1 j2 m1 m2 J M) eqn:E; [reflexivity|].
  apply guard_false in E. destruct (flip_ok _ _ _ _ _ _ E). now rewrite body2_eq.
Qed.

(* reversal of the k sum *)
Lemma cgT_refl j1 j2 m1 m2 J k : cgT j1 j2 (- m1) (- m2) J (j1 + j2 - J - k) = sgnR (j1 + j2 - J) * cgT j1 j2 m1 m2 J k.
Proof.
  unfold cgT. rewrite sgnR_sub.
  replace (j1 + j2 - J - (j1 + j2 - J - k))%Z with k by ring.
  replace (j1 - - m1 - (j1 + j2 - J - k))%Z with (J - j2 + m1 + k)%Z by ring.
  replace (j2 + - m2 - (j1 + j2 - J - k))%Z with (J - j1 - m2 + k)%Z by ring.
  replace (J - j2 + - m1 + (j1 + j2 - J - k))%Z with (j1 - m1 - k)%Z by ring.
  replace (J - j1 - - m2 + (j1 + j2 - J - k))%Z with (j2 + m2 - k)%Z by ring.
  fpos. field. repeat split; apply Rgt_not_eq; assumption.
Qed.
Lemma cgS_refl j1 j2 m1 m2 J : cgS j1 j2 (- m1) (- m2) J = sgnR (j1 + j2 - J) * cgS j1 j2 m1 m2 J.
Proof.
  unfold cgS at 1. rewrite (rsum_refl (j1 + j2 - J)).
  unfold cgS. rewrite <- rsum_scal.
  replace (j1 + j2 - J - (cg_kmax j1 j2 (- m1) (- m2) J + 1) + 1)%Z with (cg_kmin j1 j2 m1 m2 J) by (unfold cg_kmin, cg_kmax; lia).
  replace (j1 + j2 - J - cg_kmin j1 j2 (- m1) (- m2) J + 1)%Z with (cg_kmax j1 j2 m1 m2 J + 1)%Z by (unfold cg_kmin, cg_kmax; lia).
  apply rsum_ext. intros k _. apply cgT_refl.
Qed.
(* closed value without the case distinction on the sign of M *)
Lemma cg_value j1 j2 m1 m2 J M : cg_ok j1 j2 m1 m2 J M ->
  cgCoeff j1 j2 m1 m2 J M = (if (M =? m1 + m2)%Z then 1 else 0)
     * (sqrt (cgA j1 j2 J) * sqrt (cgB j1 j2 m1 m2 J M) * cgS j1 j2 m1 m2 J).
Proof.
  intros H. unfold cgCoeff. rewrite (proj2 (guard_false _ _ _ _ _ _) H). unfold cg_delta, zsgnflip.
  destruct (Z.ltb_spec M 0).
  - rewrite body_factorial, cgS_refl.
    replace (cgB j1 j2 (- m1) (- m2) J (- M)) with (cgB j1 j2 m1 m2 J M).
    + replace (J - j1 - j2)%Z with (- (j1 + j2 - J))%Z by ring. rewrite sgnR_opp.
      transitivity ((if (M =? m1 + m2)%Z then 1 else 0) * (sgnR (j1 + j2 - J) * sgnR (j1 + j2 - J)) *
         (sqrt (cgA j1 j2 J) * sqrt (cgB j1 j2 m1 m2 J M) * cgS j1 j2 m1 m2 J)); [ring|]. rewrite sgnR_sq. ring.
    + unfold cgB. replace (J + - M)%Z with (J - M)%Z by ring. replace (J - - M)%Z with (J + M)%Z by ring.
      replace (j1 - - m1)%Z with (j1 + m1)%Z by ring. replace (j1 + - m1)%Z with (j1 - m1)%Z by ring.
      replace (j2 - - m2)%Z with (j2 + m2)%Z by ring. replace (j2 + - m2)%Z with (j2 - m2)%Z by ring. ring.
  - rewrite body_factorial. ring.
Qed.
Lemma cg_flip j1 j2 m1 m2 J M : cgCoeff j1 j2 (- m1) (- m2) J (- M) = sgnR (j1 + j2 - J) * cgCoeff j1 j2 m1 m2 J M.
Proof.
  destruct (cg_guard j1 j2 m1 m2 J M) eqn:E.
  - assert (E' : cg_guard j1 j2 (- m1) (- m2) J (- M) = true).
    { revert E. unfold cg_guard. now rewrite !Z.abs_opp. }
    unfold cgCoeff. rewrite E, E'. ring.
  - apply guard_false in E. assert (E' : cg_ok j1 j2 (- m1) (- m2) J (- M)) by (unfold cg_ok in *; lia).
    rewrite !cg_value by assumption. rewrite cgS_refl.
    replace (- M =? - m1 + - m2)%Z with (M =? m1 + m2)%Z by (destruct (Z.eqb_spec M (m1 + m2)), (Z.eqb_spec (- M) (- m1 + - m2)); auto; lia).
    replace (cgB j1 j2 (- m1) (- m2) J (- M)) with (cgB j1 j2 m1 m2 J M); [ring|].
    unfold cgB. replace (J + - M)%Z with (J - M)%Z by ring. replace (J - - M)%Z with (J + M)%Z by ring.
      replace (j1 - - m1)%Z with (j1 + m1)%Z by ring. replace (j1 + - m1)%Z with (j1 - m1)%Z by ring.
      replace (j2 - - m2)%Z with (j2 + m2)%Z by ring. replace (j2 + - m2)%Z with (j2 - m2)%Z by ring. ring.
Qed.
(* exchange of the two particles *)
Lemma cgS_exch j1 j2 m1 m2 J : cgS j2 j1 m2 m1 J = sgnR (j1 + j2 - J) * cgS j1 j2 m1 m2 J.
Proof.
  unfold cgS at 1. rewrite (rsum_refl (j1 + j2 - J)).
  unfold cgS. rewrite <- rsum_scal.
  replace (j1 + j2 - J - (cg_kmax j2 j1 m2 m1 J + 1) + 1)%Z with (cg_kmin j1 j2 m1 m2 J) by (unfold cg_kmin, cg_kmax; lia).
  replace (j1 + j2 - J - cg_kmin j2 j1 m2 m1 J + 1)%Z with (cg_kmax j1 j2 m1 m2 J + 1)%Z by (unfold cg_kmin, cg_kmax; lia).
  apply rsum_ext. intros k _. unfold cgT. rewrite sgnR_sub.
  replace (j2 + j1 - J - (j1 + j2 - J - k))%Z with k by ring.
  replace (j2 - m2 - (j1 + j2 - J - k))%Z with (J - j1 - m2 + k)%Z by ring.
  replace (j1 + m1 - (j1 + j2 - J - k))%Z with (J - j2 + m1 + k)%Z by ring.
  replace (J - j1 + m2 + (j1 + j2 - J - k))%Z with (j2 + m2 - k)%Z by ring.
  replace (J - j2 - m1 + (j1 + j2 - J - k))%Z with (j1 - m1 - k)%Z by ring.
  fpos. field. repeat split; apply Rgt_not_eq; assumption.
Qed.
Lemma cg_exchange j1 j2 m1 m2 J M : cgCoeff j2 j1 m2 m1 J M = sgnR (j1 + j2 - J) * cgCoeff j1 j2 m1 m2 J M.
Proof.
  destruct (cg_guard j1 j2 m1 m2 J M) eqn:E.
  - assert (E' : cg_guard j2 j1 m2 m1 J M = true).
    { apply guard_true. intros H. assert (H' : cg_ok j1 j2 m1 m2 J M) by (unfold cg_ok in *; lia). apply guard_false in H'. congruence. }
    unfold cgCoeff. rewrite E, E'. ring.
  - apply guard_false in E. assert (E' : cg_ok j2 j1 m2 m1 J M) by (unfold cg_ok in *; lia).
    rewrite !cg_value by assumption. rewrite cgS_exch.
    replace (m2 + m1)%Z with (m1 + m2)%Z by ring.
    replace (cgB j2 j1 m2 m1 J M) with (cgB j1 j2 m1 m2 J M) by (unfold cgB; ring).
    replace (cgA j2 j1 J) with (cgA j1 j2 J); [ring|]. unfold cgA.
    replace (J + j2 - j1)%Z with (J - j1 + j2)%Z by ring. replace (J - j2 + j1)%Z with (J + j1 - j2)%Z by ring.
    replace (j2 + j1)%Z with (j1 + j2)%Z by ring. unfold Rdiv. ring.
Qed.
Lemma cg_selection j1 j2 m1 m2 J M :
  (M <> m1 + m2 \/ j1 < Z.abs m1 \/ j2 < Z.abs m2 \/ J < Z.abs M \/ j1 + j2 < J \/ J < Z.abs (j1 - j2))%Z ->
  cgCoeff j1 j2 m1 m2 J M = 0.
Proof.
  intros H. destruct (cg_guard j1 j2 m1 m2 J M) eqn:E; [unfold cgCoeff; now rewrite E|].
  apply guard_false in E. rewrite cg_value by assumption. destruct (Z.eqb_spec M (m1 + m2)); [unfold cg_ok in E; lia|ring].
Qed.
(* J = j1 + j2 *)
Lemma cg_stretched j1 j2 m1 m2 : (Z.abs m1 <= j1)%Z -> (Z.abs m2 <= j2)%Z ->
  cgCoeff j1 j2 m1 m2 (j1 + j2) (m1 + m2) =
  sqrt (zfact (2 * j1) * zfact (2 * j2) * zfact (j1 + j2 + (m1 + m2)) * zfact (j1 + j2 - (m1 + m2))
    / (zfact (2 * (j1 + j2)) * (zfact (j1 + m1) * zfact (j1 - m1) * (zfact (j2 + m2) * zfact (j2 - m2))))).
Proof.
  intros H1 H2. rewrite cg_value by (unfold cg_ok; lia). rewrite Z.eqb_refl.
  unfold cgS. replace (cg_kmin j1 j2 m1 m2 (j1 + j2)) with 0%Z by (unfold cg_kmin; lia).
  replace (cg_kmax j1 j2 m1 m2 (j1 + j2)) with 0%Z by (unfold cg_kmax; lia).
  rewrite rsum_one. unfold cgT.
  replace (j1 + j2 - (j1 + j2) - 0)%Z with 0%Z by ring. rewrite !Z.sub_0_r, !Z.add_0_r, zfact_0.
  replace (j1 + j2 - j2 + m1)%Z with (j1 + m1)%Z by ring. replace (j1 + j2 - j1 - m2)%Z with (j2 - m2)%Z by ring.
  change (sgnR 0) with 1.
  set (P := zfact (j1 + m1) * zfact (j1 - m1) * (zfact (j2 + m2) * zfact (j2 - m2))).
  assert (HP : 0 < P) by (unfold P; repeat apply Rmult_lt_0_compat; apply zfact_pos).
  rewrite <- sqrt_mult_alt.
  2:{ unfold cgA. assert (0 <= IZR (j1 + j2)) by (apply IZR_le; lia). apply Rlt_le. fpos.
      apply Rmult_lt_0_compat; [lra|]. apply Rdiv_lt_0_compat; [|assumption]. repeat apply Rmult_lt_0_compat; assumption. }
  replace (1 / (1 * 1 * (zfact (j1 - m1) * zfact (j2 + m2)) * (zfact (j1 + m1) * zfact (j2 - m2)))) with (/ P)
    by (unfold P; fpos; field; repeat split; apply Rgt_not_eq; assumption).
  rewrite Rmult_1_l. rewrite <- (sqrt_pow2 P) at 1 by lra. rewrite <- sqrt_inv.
  assert (HA : 0 <= cgA j1 j2 (j1 + j2) * cgB j1 j2 m1 m2 (j1 + j2) (m1 + m2)).
  { unfold cgA, cgB. assert (0 <= IZR (j1 + j2)) by (apply IZR_le; lia). fpos. apply Rlt_le.
    repeat (apply Rdiv_lt_0_compat || apply Rmult_lt_0_compat); (assumption || lra). }
  rewrite <- sqrt_mult_alt by exact HA. f_equal. unfold cgA, cgB.
  replace (j1 + j2 + (j1 + j2) + 1)%Z with (2 * (j1 + j2) + 1)%Z by ring.
  rewrite (zfact_succ (2 * (j1 + j2))) by lia. rewrite (plus_IZR (2 * (j1 + j2)) 1), (mult_IZR 2).
  replace (j1 + j2 + j1 - j2)%Z with (2 * j1)%Z by ring. replace (j1 + j2 - j1 + j2)%Z with (2 * j2)%Z by ring.
  rewrite Z.sub_diag, zfact_0.
  assert (H0 : 0 <= IZR (j1 + j2)) by (apply IZR_le; lia). unfold P. fpos. 
  field. repeat split; try (apply Rgt_not_eq; assumption); intros Hx; lra.
Qed.
(* J = j2 - j1 *)
Lemma cg_lowered j1 j2 m1 m2 : (Z.abs m1 <= j1)%Z -> (Z.abs m2 <= j2)%Z -> (Z.abs (m1 + m2) <= j2 - j1)%Z ->
  cgCoeff j1 j2 m1 m2 (j2 - j1) (m1 + m2) = sgnR (j1 - m1) *
  sqrt (zfact (2 * (j2 - j1) + 1) * zfact (2 * j1) * (zfact (j2 + m2) * zfact (j2 - m2))
    / (zfact (2 * j2 + 1) * (zfact (j2 - j1 + (m1 + m2)) * zfact (j2 - j1 - (m1 + m2)) * (zfact (j1 + m1) * zfact (j1 - m1))))).
Proof.
  intros H1 H2 H3. rewrite cg_value by (unfold cg_ok; lia). rewrite Z.eqb_refl.
  unfold cgS. replace (cg_kmin j1 j2 m1 m2 (j2 - j1)) with (j1 - m1)%Z by (unfold cg_kmin; lia).
  replace (cg_kmax j1 j2 m1 m2 (j2 - j1)) with (j1 - m1)%Z by (unfold cg_kmax; lia).
  rewrite rsum_one. unfold cgT.
  replace (j1 + j2 - (j2 - j1) - (j1 - m1))%Z with (j1 + m1)%Z by ring. rewrite (Z.sub_diag (j1 - m1)).
  replace (j2 + m2 - (j1 - m1))%Z with (j2 - j1 + (m1 + m2))%Z by ring.
  replace (j2 - j1 - j2 + m1 + (j1 - m1))%Z with 0%Z by ring.
  replace (j2 - j1 - j1 - m2 + (j1 - m1))%Z with (j2 - j1 - (m1 + m2))%Z by ring. rewrite zfact_0.
  set (P := zfact (j2 - j1 + (m1 + m2)) * zfact (j2 - j1 - (m1 + m2)) * (zfact (j1 + m1) * zfact (j1 - m1))).
  assert (HP : 0 < P) by (unfold P; repeat apply Rmult_lt_0_compat; apply zfact_pos).
  assert (HJ : 0 <= IZR (j2 - j1)) by (apply IZR_le; lia).
  rewrite <- sqrt_mult_alt.
  2:{ unfold cgA. apply Rlt_le. fpos.
      apply Rmult_lt_0_compat; [lra|]. apply Rdiv_lt_0_compat; [|assumption]. repeat apply Rmult_lt_0_compat; assumption. }
  replace (sgnR (j1 - m1) / (zfact (j1 - m1) * zfact (j1 + m1) * (1 * zfact (j2 - j1 + (m1 + m2))) * (1 * zfact (j2 - j1 - (m1 + m2)))))
    with (sgnR (j1 - m1) * / P)
    by (unfold P; fpos; field; repeat split; apply Rgt_not_eq; assumption).
  assert (HA : 0 <= cgA j1 j2 (j2 - j1) * cgB j1 j2 m1 m2 (j2 - j1) (m1 + m2)).
  { unfold cgA, cgB. fpos. apply Rlt_le.
    repeat (apply Rdiv_lt_0_compat || apply Rmult_lt_0_compat); (assumption || lra). }
  transitivity (sgnR (j1 - m1) * (sqrt (cgA j1 j2 (j2 - j1) * cgB j1 j2 m1 m2 (j2 - j1) (m1 + m2)) * / P)); [ring|]. f_equal.
  rewrite <- (sqrt_pow2 P) at 1 by lra. rewrite <- sqrt_inv. rewrite <- sqrt_mult_alt by exact HA. f_equal. unfold cgA, cgB.
  replace (j1 + j2 + (j2 - j1) + 1)%Z with (2 * j2 + 1)%Z by ring.
  rewrite (zfact_succ (2 * (j2 - j1))) by lia. rewrite (plus_IZR (2 * (j2 - j1)) 1), (mult_IZR 2).
  replace (j2 - j1 + j1 - j2)%Z with 0%Z by ring. replace (j2 - j1 - j1 + j2)%Z with (2 * (j2 - j1))%Z by ring.
  replace (j1 + j2 - (j2 - j1))%Z with (2 * j1)%Z by ring. rewrite zfact_0.
  unfold P. fpos. field. repeat split; apply Rgt_not_eq; assumption.
Qed.
