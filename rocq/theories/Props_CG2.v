(* C56: the coefficients returned by clebschGordan.cgCoeff form an orthogonal matrix between the
   product basis |j1 m1>|j2 m2> and the coupled basis |J M>, and satisfy the ladder recursions. *)
From Verif Require Import CGSpec ClebschGordanProofs Props_CG CGOrth.
From Verif Require Import Cplx.
Open Scope R_scope.

(* sum over a <= k <= b *)
Definition sum_to (a b : Z) (f : Z -> R) : R := rsum a (b + 1) f.
Definition kron (i j : Z) : R := if (i =? j)%Z then 1 else 0.
(* sqrt (j(j+1) - m(m-1)), the matrix element of J_- / J_+ between m and m - 1 *)
Definition ladder (j m : Z) : R := sqrt (IZR (j * (j + 1) - m * (m - 1))).
(* J occurs in j1 x j2 *)
Definition couples (j1 j2 J : Z) : Prop := (0 <= j1 /\ 0 <= j2 /\ Z.abs (j1 - j2) <= J <= j1 + j2)%Z.

Lemma ladder_lad j m : ladder j m = lad j m.
Proof. unfold ladder, lad. do 2 f_equal. ring. Qed.
Lemma cg_off j1 j2 m1 m2 J M : M <> (m1 + m2)%Z -> cgCoeff j1 j2 m1 m2 J M = 0.
Proof. intros N. apply C15_selection_rules. unfold admissible. lia. Qed.

Theorem C56_orthonormal : forall j1 j2 J J' M M' : Z, couples j1 j2 J -> couples j1 j2 J' ->
  (Z.abs M <= J)%Z -> (Z.abs M' <= J')%Z ->
  sum_to (- j1) j1 (fun m1 => sum_to (- j2) j2 (fun m2 => cgCoeff j1 j2 m1 m2 J M * cgCoeff j1 j2 m1 m2 J' M'))
  = kron J J' * kron M M'.
Proof.
  intros j1 j2 J J' M M' T T' HM HM'. unfold sum_to.
  destruct (Z.eq_dec M M') as [<-|N].
  - unfold kron at 2. rewrite Z.eqb_refl, Rmult_1_r.
    change (kron J J') with (if (J =? J')%Z then 1 else 0). rewrite <- (cg_orthonormal j1 j2 J J' M) by assumption.
    unfold ip. apply rsum_ext. intros m1 Hm1. unfold cg.
    destruct (Z_le_dec (Z.abs (M - m1)) j2) as [h|h].
    + rewrite (rsum_single _ _ (M - m1)); [now replace (m1 + (M - m1))%Z with M by ring|lia|].
      intros k Hk Nk. rewrite cg_off by lia. ring.
    + rewrite rsum_0; [rewrite (C15_selection_rules j1 j2 m1 (M - m1)) by (unfold admissible; lia); ring|].
      intros k Hk. rewrite cg_off by lia. ring.
  - unfold kron at 2. destruct (Z.eqb_spec M M'); [contradiction|]. rewrite Rmult_0_r.
    apply rsum_0. intros m1 _. apply rsum_0. intros m2 _.
    destruct (Z.eq_dec M (m1 + m2)); [rewrite (cg_off _ _ _ _ J' M') by lia|rewrite (cg_off _ _ _ _ J M) by lia]; ring.
Qed.

Theorem C56_complete : forall j1 j2 m1 m2 n1 n2 : Z,
  (Z.abs m1 <= j1)%Z -> (Z.abs m2 <= j2)%Z -> (Z.abs n1 <= j1)%Z -> (Z.abs n2 <= j2)%Z ->
  sum_to (Z.abs (j1 - j2)) (j1 + j2) (fun J => sum_to (- J) J (fun M => cgCoeff j1 j2 m1 m2 J M * cgCoeff j1 j2 n1 n2 J M))
  = kron m1 n1 * kron m2 n2.
Proof.
  intros j1 j2 m1 m2 n1 n2 H1 H2 G1 G2. unfold sum_to.
  destruct (Z.eq_dec (m1 + m2) (n1 + n2)) as [E|N].
  - transitivity (dl m1 n1).
    + rewrite <- (cg_complete j1 j2 (m1 + m2) m1 n1) by lia. apply rsum_ext. intros J HJ. unfold cg.
      replace (m1 + m2 - m1)%Z with m2 by ring. replace (m1 + m2 - n1)%Z with n2 by lia. rewrite <- E.
      destruct (Z_le_dec (Z.abs (m1 + m2)) J) as [h|h].
      * rewrite (rsum_single _ _ (m1 + m2)); [reflexivity|lia|]. intros k Hk Nk. rewrite cg_off by lia. ring.
      * rewrite rsum_0; [rewrite (C15_selection_rules j1 j2 m1 m2) by (unfold admissible; lia); ring|].
        intros k Hk. rewrite cg_off by lia. ring.
    + unfold dl, kron. destruct (Z.eqb_spec m1 n1), (Z.eqb_spec m2 n2); try lia; ring.
  - rewrite rsum_0.
    + unfold kron. destruct (Z.eqb_spec m1 n1), (Z.eqb_spec m2 n2); try lia; ring.
    + intros J _. apply rsum_0. intros M _.
      destruct (Z.eq_dec M (m1 + m2)); [rewrite (cg_off _ _ n1 n2) by lia|rewrite (cg_off _ _ m1 m2) by lia]; ring.
Qed.

(* raising / lowering both bases by one unit *)
Theorem C56_raising : forall j1 j2 J m1 m2 : Z, couples j1 j2 J ->
  ladder J (m1 + m2) * cgCoeff j1 j2 m1 m2 J (m1 + m2)
  = ladder j1 m1 * cgCoeff j1 j2 (m1 - 1) m2 J (m1 + m2 - 1) + ladder j2 m2 * cgCoeff j1 j2 m1 (m2 - 1) J (m1 + m2 - 1).
Proof.
  intros j1 j2 J m1 m2 T. rewrite !ladder_lad. assert (E := cg_raise j1 j2 J m1 m2 T). unfold cg in E.
  replace (m1 - 1 + m2)%Z with (m1 + m2 - 1)%Z in E by ring. replace (m1 + (m2 - 1))%Z with (m1 + m2 - 1)%Z in E by ring. now rewrite E.
Qed.
Theorem C56_lowering : forall j1 j2 J m1 m2 : Z, couples j1 j2 J ->
  ladder J (m1 + m2 + 1) * cgCoeff j1 j2 m1 m2 J (m1 + m2)
  = ladder j1 (m1 + 1) * cgCoeff j1 j2 (m1 + 1) m2 J (m1 + m2 + 1) + ladder j2 (m2 + 1) * cgCoeff j1 j2 m1 (m2 + 1) J (m1 + m2 + 1).
Proof.
  intros j1 j2 J m1 m2 T. rewrite !ladder_lad. assert (E := cg_lower j1 j2 J m1 m2 T). unfold cg in E.
  replace (m1 + 1 + m2)%Z with (m1 + m2 + 1)%Z in E by ring. replace (m1 + (m2 + 1))%Z with (m1 + m2 + 1)%Z in E by ring. now rewrite E.
Qed.

(* every coefficient lies in [-1, 1], whatever the arguments *)
Theorem C56_bounded : forall j1 j2 m1 m2 J M : Z, Rabs (cgCoeff j1 j2 m1 m2 J M) <= 1.
Proof.
  intros j1 j2 m1 m2 J M.
  destruct (Z_le_dec (Z.abs m1) j1) as [a|a]; [|rewrite C15_selection_rules by (unfold admissible; lia); rewrite Rabs_R0; lra].
  destruct (Z_le_dec (Z.abs m2) j2) as [b|b]; [|rewrite C15_selection_rules by (unfold admissible; lia); rewrite Rabs_R0; lra].
  destruct (Z_le_dec (Z.abs (j1 - j2)) J) as [c|c]; [|rewrite C15_selection_rules by (unfold admissible; lia); rewrite Rabs_R0; lra].
  destruct (Z_le_dec J (j1 + j2)) as [d|d]; [|rewrite C15_selection_rules by (unfold admissible; lia); rewrite Rabs_R0; lra].
  destruct (Z.eq_dec M (m1 + m2)) as [->|n]; [|rewrite cg_off by lia; rewrite Rabs_R0; lra].
  destruct (Z_le_dec (Z.abs (m1 + m2)) J) as [e|e]; [|rewrite C15_selection_rules by (unfold admissible; lia); rewrite Rabs_R0; lra].
  assert (E := cg_orthonormal j1 j2 J J (m1 + m2) ltac:(unfold tri_ok; lia) ltac:(unfold tri_ok; lia) e). rewrite Z.eqb_refl in E.
  unfold ip in E. assert (Hin : (- j1 <= m1 < j1 + 1)%Z) by lia.
  set (f := fun m => cg j1 j2 J m (m1 + m2 - m) * cg j1 j2 J m (m1 + m2 - m)) in E.
  assert (F : rsum (- j1) (j1 + 1) (fun m => f m - dl m1 m * f m1) = 1 - f m1).
  { rewrite rsum_minus, E. f_equal. now rewrite (rsum_dl _ _ m1 (fun _ => f m1)). }
  assert (P : 0 <= 1 - f m1).
  { rewrite <- F. apply rsum_ge0. intros k Hk. unfold dl. destruct (Z.eqb_spec m1 k) as [<-|N]; [lra|].
    rewrite Rmult_0_l, Rminus_0_r. apply Rle_0_sqr. }
  unfold f, cg in P. replace (m1 + (m1 + m2 - m1))%Z with (m1 + m2)%Z in P by ring. replace (m1 + m2 - m1)%Z with m2 in P by ring.
  rewrite <- Rabs_R1. apply Rsqr_le_abs_0. unfold Rsqr. lra.
Qed.

(* the second implementation inherits all of it *)
Theorem C56_cgCoeff2_orthonormal : forall j1 j2 J J' M M' : Z, couples j1 j2 J -> couples j1 j2 J' ->
  (Z.abs M <= J)%Z -> (Z.abs M' <= J')%Z ->
  sum_to (- j1) j1 (fun m1 => sum_to (- j2) j2 (fun m2 => cgCoeff2 j1 j2 m1 m2 J M * cgCoeff2 j1 j2 m1 m2 J' M'))
  = kron J J' * kron M M'.
Proof.
  intros. rewrite <- (C56_orthonormal j1 j2) by assumption. unfold sum_to. apply rsum_ext. intros m1 _. apply rsum_ext. intros m2 _.
  now rewrite !C14_implementations_agree.
Qed.

(* non-vacuity: 1 x 2 -> 3, 1; and a ladder step with three non-zero terms *)
Example C56_case : couples 1 2 3 /\ couples 1 2 1 /\ (Z.abs 1 <= 1)%Z /\ ladder 2 1 <> 0 /\ ladder 1 1 <> 0.
Proof.
  repeat split; try lia; unfold ladder; apply Rgt_not_eq, sqrt_lt_R0; cbn; lra.
Qed.
Example C56_case_value : cgCoeff 1 1 1 (-1) 2 0 * cgCoeff 1 1 1 (-1) 2 0 = / 6.
Proof. rewrite (proj2 C15_case). apply sqrt_sqrt. lra. Qed.

Print Assumptions C56_orthonormal.
Print Assumptions C56_complete.
Print Assumptions C56_raising.
Print Assumptions C56_bounded.
