(* The entries of cylhole and cylhole2 against the integrals over two crossed cylinders *)
From Coq Require Import Reals Lra Lia ZArith.
From Coquelicot Require Import Coquelicot.
From Verif Require Import AchProofs AchProofs3 EllSpec Crossed Hyper Res.
From Verif Require Import Cplx.
From Verif Require Import Elliptic.
Open Scope R_scope.

Definition km (r Rad : R) : R := (r / Rad) ^ 2.
Lemma km_range r Rad : 0 < r <= Rad -> 0 < km r Rad <= 1.
Proof.
  intros H. unfold km. assert (r / Rad <= 1) by (apply (Rmult_le_reg_r Rad); [lra|]; replace (r / Rad * Rad) with r by (field; lra); lra).
  assert (0 < r / Rad) by (apply Rdiv_lt_0_compat; lra). split; [apply pow_lt; lra|]. nra.
Qed.
Lemma J_pos m i : 0 <= m <= 1 -> 0 < J m i.
Proof.
  intros Hm. assert (I : is_RInt (fun u => cos u ^ 2 * sin u ^ (2 * i) + - m * (cos u ^ 2 * sin u ^ (2 * S i))) (- h) h (Wa i + - m * Wa (S i))) by (apply int_add; [apply Wa_is|apply int_scal, Wa_is]).
  assert (L : Wa i + - m * Wa (S i) <= J m i).
  { refine (is_RInt_le _ _ _ _ _ _ _ I (J_is m i) _); [assert (P := h_pos); lra|]. intros u Hu.
    replace (2 * S i)%nat with (2 + 2 * i)%nat by lia. rewrite pow_add. assert (P : 0 <= cos u ^ 2 * sin u ^ (2 * i)). { rewrite pow_mult. apply Rmult_le_pos; [apply pow2_ge_0|]. apply pow_le, pow2_ge_0. }
    assert (Q := D_sq m u Hm). assert (Q0 : 0 <= D m u) by apply sqrt_pos. assert (Q1 : D m u <= 1) by (assert (S2 := sin2_le u); assert (S3 : 0 <= m * sin u ^ 2) by (apply Rmult_le_pos; lra); clear - Q Q0 S3; nra).
    replace (cos u ^ 2 * sin u ^ (2 * i) + - m * (cos u ^ 2 * (sin u ^ 2 * sin u ^ (2 * i)))) with ((cos u ^ 2 * sin u ^ (2 * i)) * (D m u * D m u)) by (rewrite Q; ring).
    apply Rmult_le_compat_l; [exact P|]. clear - Q0 Q1. nra. }
  assert (P := Wa_pos i). rewrite Wa_S in L. assert (Hi := pos_INR i).
  assert (F : (2 * INR i + 1) / (2 * INR i + 4) < 1). { apply (Rmult_lt_reg_r (2 * INR i + 4)); [lra|]. replace ((2 * INR i + 1) / (2 * INR i + 4) * (2 * INR i + 4)) with (2 * INR i + 1) by (field; lra). lra. }
  assert (F0 : 0 < (2 * INR i + 1) / (2 * INR i + 4)) by (apply Rdiv_lt_0_compat; lra).
  set (w := Wa i) in *. set (q := (2 * INR i + 1) / (2 * INR i + 4)) in *. clearbody w q. assert (0 < w * q) by (apply Rmult_lt_0_compat; lra). assert (m * (w * q) <= 1 * (w * q)) by (apply Rmult_le_compat_r; lra). assert (w * q < w * 1) by (apply Rmult_lt_compat_l; lra). lra.
Qed.
Section vals.
  Variables r Rad : R.
  Hypothesis Hr : 0 < r <= Rad.
  Notation m := (km r Rad).
  Notation J0 := (J m 0). Notation J1 := (J m 1). Notation J2 := (J m 2).
  Lemma m01 : 0 <= m <= 1. Proof. destruct (km_range _ _ Hr); lra. Qed.
  Lemma X_odd a b c : Nat.odd a = true -> X r Rad a b c = 0.
  Proof. intros O. rewrite X_G by exact Hr. rewrite G_odd by (now apply Nat.odd_spec). ring. Qed.
  Lemma G_021 : G m 0 2 1 = J0. Proof. exact (G_J m 0). Qed.
  Lemma G_221 : G m 2 2 1 = J1. Proof. exact (G_J m 1). Qed.
  Lemma G_421 : G m 4 2 1 = J2. Proof. exact (G_J m 2). Qed.
  Lemma X_011 : X r Rad 0 1 1 = r ^ 2 * Rad * J0.
  Proof. rewrite X_G by exact Hr. fold m. rewrite G_021. cbn [Nat.add]. ring. Qed.
  Lemma X_211 : X r Rad 2 1 1 = r ^ 4 * Rad * J1.
  Proof. rewrite X_G by exact Hr. fold m. rewrite G_221. cbn [Nat.add]. ring. Qed.
  Lemma X_411 : X r Rad 4 1 1 = r ^ 6 * Rad * J2.
  Proof. rewrite X_G by exact Hr. fold m. rewrite G_421. cbn [Nat.add]. ring. Qed.
  Lemma X_031 : X r Rad 0 3 1 = r ^ 4 * Rad * (J0 - J1).
  Proof. rewrite X_G by exact Hr. fold m. rewrite (G_cos m 0 2), G_021, G_221. cbn [Nat.add]. ring. Qed.
  Lemma X_231 : X r Rad 2 3 1 = r ^ 6 * Rad * (J1 - J2).
  Proof. rewrite X_G by exact Hr. fold m. rewrite (G_cos m 2 2), G_421, G_221. cbn [Nat.add]. ring. Qed.
  Lemma X_051 : X r Rad 0 5 1 = r ^ 6 * Rad * (J0 - 2 * J1 + J2).
  Proof. rewrite X_G by exact Hr. fold m. rewrite (G_cos m 0 4), (G_cos m 0 2), (G_cos m 2 2), G_021, G_421, G_221. cbn [Nat.add]. ring. Qed.
  Lemma X_013 : X r Rad 0 1 3 = r ^ 2 * Rad ^ 3 * (J0 - m * J1).
  Proof. rewrite X_G by exact Hr. fold m. rewrite (G_D m 0 2 1 m01), G_021, G_221. cbn [Nat.add]. ring. Qed.
  Lemma X_213 : X r Rad 2 1 3 = r ^ 4 * Rad ^ 3 * (J1 - m * J2).
  Proof. rewrite X_G by exact Hr. fold m. rewrite (G_D m 2 2 1 m01), G_421, G_221. cbn [Nat.add]. ring. Qed.
  Lemma X_033 : X r Rad 0 3 3 = r ^ 4 * Rad ^ 3 * (J0 - J1 - m * (J1 - J2)).
  Proof. rewrite X_G by exact Hr. fold m. rewrite (G_cos m 0 2), !(fun a b c => G_D m a b c m01), G_021, G_421, G_221. cbn [Nat.add]. ring. Qed.
  Lemma X_015 : X r Rad 0 1 5 = r ^ 2 * Rad ^ 5 * (J0 - 2 * m * J1 + m ^ 2 * J2).
  Proof. rewrite X_G by exact Hr. fold m. rewrite (G_D m 0 2 3 m01), (G_D m 0 2 1 m01), (G_D m 2 2 1 m01), G_021, G_421, G_221. cbn [Nat.add]. ring. Qed.
  Lemma core_vol : mu_core r Rad 0 0 0 = 4 * (r ^ 2 * Rad * J0).
  Proof. unfold mu_core, even2. cbn [Z.even]. cbv iota. change (Z.to_nat 0) with 0%nat. change (Z.to_nat (0 + 1)) with 1%nat. rewrite X_011. change (0 + 1)%Z with 1%Z. rewrite zfact_1. field. Qed.
  Lemma core_vol_pos : 0 < mu_core r Rad 0 0 0.
  Proof. rewrite core_vol. assert (P := J_pos m 0 m01). repeat apply Rmult_lt_0_compat; try lra. Qed.
  Lemma core_body L rho tab ok : (0 <= L)%Z -> tabwf tab = true ->
    (forall l mm, (0 <= mm <= l)%Z -> (l <= 5)%Z -> ok l mm = true -> tabf tab l mm = (RtoC rho * (RtoC (nrm l mm) * mono_int (mu_core r Rad) l mm))%C) ->
    density_moments ok (ach_finish L tab) rho (crossed_core r Rad).
  Proof.
    intros HL W T. assert (V := core_vol_pos).
    apply (ach_body _ (mono_int (mu_core r Rad)) rho (mu_core r Rad 0 0 0)); [assumption|assumption|apply regular_core|lra| | |].
    - apply mono_000; [apply regular_core|intros; now apply core_mono].
    - intros l mm Hm _ _. apply mono_solid; [apply regular_core|intros; now apply core_mono|assumption].
    - intros l mm Hm Hl Ho. rewrite (Rabs_pos_eq (mu_core r Rad 0 0 0)) by lra. replace (mu_core r Rad 0 0 0 / mu_core r Rad 0 0 0) with 1 by (field; lra). rewrite Rmult_1_r. now apply T.
  Qed.
End vals.
Ltac xval Hr := cbv [Z.to_nat Pos.to_nat Pos.iter_op Nat.add Init.Nat.add]; rewrite ?(X_odd _ _ Hr 1 _ _ eq_refl), ?(X_odd _ _ Hr 3 _ _ eq_refl), ?(X_odd _ _ Hr 5 _ _ eq_refl),
  ?(X_011 _ _ Hr), ?(X_211 _ _ Hr), ?(X_411 _ _ Hr), ?(X_031 _ _ Hr), ?(X_231 _ _ Hr), ?(X_051 _ _ Hr), ?(X_013 _ _ Hr), ?(X_213 _ _ Hr), ?(X_033 _ _ Hr), ?(X_015 _ _ Hr).
