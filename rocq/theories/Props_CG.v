(* C14, C15: Clebsch-Gordan coefficients *)
From Verif Require Import CGSpec ClebschGordanProofs.
Open Scope R_scope.

(* C14: the two implementations agree on all integer arguments *)
Theorem C14_implementations_agree : forall j1 j2 m1 m2 J M : Z,
  cgCoeff2 j1 j2 m1 m2 J M = cgCoeff j1 j2 m1 m2 J M.
Proof. exact cg_agree. Qed.

Lemma invfact_neg n : (n < 0)%Z -> invfact n = 0.
Proof. intros. unfold invfact. now rewrite (proj2 (Z.ltb_lt n 0)). Qed.
Lemma invfact_pos n : (0 <= n)%Z -> invfact n = / zfact n.
Proof. intros. unfold invfact. now rewrite (proj2 (Z.ltb_ge n 0)). Qed.

(* C15: outside the selection rules the coefficient is 0, inside it is Racah's formula *)
Theorem C15_selection_rules : forall j1 j2 m1 m2 J M : Z,
  ~ admissible j1 j2 m1 m2 J M -> cgCoeff j1 j2 m1 m2 J M = 0.
Proof. intros * H. apply cg_selection. unfold admissible in H. lia. Qed.

Theorem C15_racah_formula : forall j1 j2 m1 m2 J M : Z,
  admissible j1 j2 m1 m2 J M -> cgCoeff j1 j2 m1 m2 J M = racah j1 j2 m1 m2 J.
Proof.
  intros j1 j2 m1 m2 J M (H1 & H2 & H3 & H4 & H5 & ->).
  rewrite cg_value by (unfold cg_ok; lia). rewrite Z.eqb_refl. unfold racah.
  rewrite Rmult_1_l. f_equal; [f_equal; f_equal|].
  - unfold cgA, Rdiv. ring.
  - unfold cgB. ring.
  - unfold cgS. apply RtoC_inj. rewrite !rsum_zsum.
    transitivity (zsum (cg_kmin j1 j2 m1 m2 J) (cg_kmax j1 j2 m1 m2 J + 1) (fun k => RtoC
      (sgnR k * invfact k * invfact (j1 + j2 - J - k) * invfact (j1 - m1 - k)
      * invfact (j2 + m2 - k) * invfact (J - j2 + m1 + k) * invfact (J - j1 - m2 + k)))).
    + apply zsum_ext. intros k Hk. f_equal. unfold cg_kmin, cg_kmax in Hk. rewrite !invfact_pos by lia. unfold cgT.
      fpos. field. repeat split; apply Rgt_not_eq; assumption.
    + apply zsum_supp; intros k Ha Hb; unfold cg_kmin, cg_kmax in *.
      * exfalso. lia.
      * f_equal. assert (Hc : (k < 0 \/ j1 - m1 - k < 0 \/ j2 + m2 - k < 0 \/ J - j2 + m1 + k < 0 \/ J - j1 - m2 + k < 0)%Z) by lia.
        destruct Hc as [Hc|[Hc|[Hc|[Hc|Hc]]]]; rewrite (invfact_neg _ Hc); ring.
Qed.

(* C15: the stretched case J = j1 + j2 *)
Theorem C15_stretched : forall j1 j2 m1 m2 : Z, (Z.abs m1 <= j1)%Z -> (Z.abs m2 <= j2)%Z ->
  cgCoeff j1 j2 m1 m2 (j1 + j2) (m1 + m2) =
  sqrt (zfact (2 * j1) * zfact (2 * j2) * zfact (j1 + j2 + (m1 + m2)) * zfact (j1 + j2 - (m1 + m2))
    / (zfact (2 * (j1 + j2)) * (zfact (j1 + m1) * zfact (j1 - m1) * (zfact (j2 + m2) * zfact (j2 - m2))))).
Proof. exact cg_stretched. Qed.

(* C15: the lowered case J = j2 - j1 *)
Theorem C15_lowered : forall j1 j2 m1 m2 : Z,
  (Z.abs m1 <= j1)%Z -> (Z.abs m2 <= j2)%Z -> (Z.abs (m1 + m2) <= j2 - j1)%Z ->
  cgCoeff j1 j2 m1 m2 (j2 - j1) (m1 + m2) = sgnR (j1 - m1) *
  sqrt (zfact (2 * (j2 - j1) + 1) * zfact (2 * j1) * (zfact (j2 + m2) * zfact (j2 - m2))
    / (zfact (2 * j2 + 1) * (zfact (j2 - j1 + (m1 + m2)) * zfact (j2 - j1 - (m1 + m2)) * (zfact (j1 + m1) * zfact (j1 - m1))))).
Proof. exact cg_lowered. Qed.

(* C15: symmetries, for all integer arguments *)
Theorem C15_sign_reversal : forall j1 j2 m1 m2 J M : Z,
  cgCoeff j1 j2 (- m1) (- m2) J (- M) = sgnR (j1 + j2 - J) * cgCoeff j1 j2 m1 m2 J M.
Proof. exact cg_flip. Qed.
Theorem C15_exchange : forall j1 j2 m1 m2 J M : Z,
  cgCoeff j2 j1 m2 m1 J M = sgnR (j1 + j2 - J) * cgCoeff j1 j2 m1 m2 J M.
Proof. exact cg_exchange. Qed.

(* non-vacuity: < 1 1; 1 -1 | 2 0 > = sqrt (1/6) *)
Example C15_case : admissible 1 1 1 (-1) 2 0 /\ cgCoeff 1 1 1 (-1) 2 0 = sqrt (/ 6).
Proof.
  split; [unfold admissible; lia|].
  change 2%Z with (1 + 1)%Z. change 0%Z with (1 + -1)%Z. rewrite cg_stretched by lia. f_equal.
  unfold zfact. simpl. field.
Qed.
Example C15_case_lowered : admissible 1 2 1 (-1) 1 0 /\ cgCoeff 1 2 1 (-1) 1 0 = sqrt (3 / 10).
Proof.
  split; [unfold admissible; lia|].
  change (cgCoeff 1 2 1 (-1) 1 0) with (cgCoeff 1 2 1 (-1) (2 - 1) (1 + -1)). rewrite cg_lowered by lia.
  change (sgnR (1 - 1)) with 1. rewrite Rmult_1_l. f_equal.
  unfold zfact. simpl. field.
Qed.
Example C15_case_selection : ~ admissible 1 1 1 1 1 1.
Proof. unfold admissible. lia. Qed.

Print Assumptions C14_implementations_agree.
Print Assumptions C15_racah_formula.
