(* The closed forms of qlmACH.py are volume integrals: annulus. *)
From Verif Require Export AchProofs4.
From Verif Require Import ClebschGordanProofs TranslationsProofs.
From Verif Require Import Cplx.
Open Scope C_scope.

(* ---- annulus --------------------------------------------------------------------- *)
Lemma Phi_pos m pc ph : (0 < m)%Z -> ph <> 0%R -> Phi m pc ph = RtoC (2 * sin (IZR m * ph) / IZR m) * cpow (cexpi (- pc)) (Z.to_nat m).
Proof.
  intros Hm Hp. unfold Phi, np_sinc. assert (HP := PI_neq0). assert (Hm' : IZR m <> 0%R) by (apply not_0_IZR; lia).
  destruct (Req_EM_T (IZR m * ph / PI) 0) as [E|_].
  { exfalso. apply Rmult_integral in E. destruct E as [E|E]; [|now apply Rinv_neq_0_compat in E]. apply Rmult_integral in E. tauto. }
  rewrite cexpi_pow, INR_IZR_INZ, Z2Nat.id by lia. f_equal; [f_equal|f_equal; ring].
  replace (PI * (IZR m * ph / PI))%R with (IZR m * ph)%R by (field; assumption). field. split; assumption.
Qed.
Ltac an_open := unfold annular_int, zsum; cbv [Z.div Z.div_eucl Z.pos_div_eucl Z.to_nat Z.of_nat Pos.to_nat Pos.iter_op Nat.add Init.Nat.add Pos.of_succ_nat nsum Z.leb Z.ltb Z.compare Pos.compare Pos.compare_cont Z.geb]; zc;
  unfold sgnC, zval; zc; cbv iota; rw_zf; rw_pw; rewrite ?Phi_0; rewrite ?(Phi_pos 1), ?(Phi_pos 2), ?(Phi_pos 3), ?(Phi_pos 4), ?(Phi_pos 5) by (lia || assumption);
  cbv [Z.to_nat Pos.to_nat Pos.iter_op Nat.add Init.Nat.add].
Lemma ach_annulus_tab_ok rho H Ri Ro pc ph : ph <> 0%R -> forall l m, (0 <= m <= l)%Z -> (l <= 5)%Z ->
  tabf (ach_annulus_tab rho H Ri Ro pc ph) l m = RtoC rho * (RtoC (nrm l m) * annular_int H Ri Ro pc ph l m).
Proof.
  intros Hph. apply lm_cases.
  all: unfold ach_annulus_tab; tab_read; rw_nrm; an_open.
  all: replace (ph * 2 * 3 / 2)%R with (3 * ph)%R by field; replace (ph * 2 * 5 / 2)%R with (5 * ph)%R by field; replace (ph * 2 / 2)%R with (1 * ph)%R by field; replace (2 * (ph * 2))%R with (4 * ph)%R by ring; replace (ph * 2)%R with (2 * ph)%R by ring.
  all: try generalize (sin (1 * ph)); try generalize (sin (2 * ph)); try generalize (sin (3 * ph)); try generalize (sin (4 * ph)); try generalize (sin (5 * ph)); intros; try (destruct (cexpi (- pc)) as [ex ey]).
  all: apply C_eq; cbn [cpow Cmult Cplus Cminus Copp Cdiv Cinv Ci RtoC fst snd Re Im]; sqsplit; field [s2s s3s s5s s7s s11s]; repeat split; ne0.
Qed.

(* an empty volume (Ri = - Ro, which the guard lets through) is excluded *)
Lemma ach_annulus_body LMax rho H Ri Ro pc ph q : (0 <= LMax)%Z -> ach_annulus LMax rho H Ri Ro pc ph = Ok q -> (0 < Ri + Ro)%R ->
  deg q = LMax /\ density_moments every q rho (annular_sector H Ri Ro pc ph).
Proof.
  intros HL E HR. unfold ach_annulus in E. destruct (_ || _)%bool eqn:G; [discriminate|]. apply Ok_inj in E. subst q.
  apply Bool.orb_false_elim in G. destruct G as [G G5]. apply Bool.orb_false_elim in G. destruct G as [G G4]. apply Bool.orb_false_elim in G. destruct G as [G G3]. apply Bool.orb_false_elim in G. destruct G as [G1 G2].
  apply rle_false in G1. apply rle_false in G2. apply rle_false in G3. apply rlt_false in G4. apply rle_false in G5.
  assert (Hph : ph <> 0%R) by lra.
  split; [apply deg_ach|]. set (V := (H * (Ro ^ 2 - Ri ^ 2) * ph)%R).
  assert (HV : (0 < V)%R). { unfold V. replace (Ro ^ 2 - Ri ^ 2)%R with ((Ro - Ri) * (Ri + Ro))%R by ring. repeat apply Rmult_lt_0_compat; lra. }
  apply (ach_body _ (annular_int H Ri Ro pc ph) rho V); [assumption|reflexivity|apply regular_annular|lra| | |].
  - now apply annular_volume.
  - intros l m Hm _ _. now apply annular_solid.
  - intros l m Hm Hl _. rewrite (Rabs_pos_eq V) by lra. replace (V / V)%R with 1%R by (field; lra). rewrite Rmult_1_r. now apply ach_annulus_tab_ok.
Qed.
