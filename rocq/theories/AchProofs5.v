(* The closed forms of qlmACH.py are volume integrals: second cone, wrong cone entries, annulus. *)
From Verif Require Export AchProofs4.
From Verif Require Import ClebschGordanProofs TranslationsProofs.
From Verif Require Import Cplx.
Open Scope C_scope.

Lemma ach_cone_50 rho h r1 r2 : h <> 0%R ->
  tabf (ach_cone_tab rho h r1 r2) 5 0 = RtoC rho * (RtoC (nrm 5 0) * fr_int (- h / 2) h r2 r1 5 0)
    - RtoC (5 * sqrt 11 * sqrt PI / 448 * rho * h ^ 2 * (r1 ^ 2 - r2 ^ 2) * (r1 ^ 2 * r2) * (r1 - 1)).
Proof.
  intros Hh. unfold ach_cone_tab; tab_read; rw_nrm; fr_open; fr_calc; piz; field [s2s s3s s5s s7s s11s]; repeat split; ne0.
Qed.
Lemma ach_cone2_body LMax rho h r1 r2 q : (0 <= LMax)%Z -> ach_cone2 LMax rho h r1 r2 = Ok q ->
  deg q = LMax /\ density_moments (but 2 0) q rho (frustum 0 h r1 r2).
Proof.
  intros HL E. unfold ach_cone2 in E. destruct (_ || _)%bool eqn:G; [discriminate|]. apply Ok_inj in E. subst q.
  apply cone_guard in G. destruct G as [Gh GS]. assert (Hh : h <> 0%R) by lra. split; [apply deg_ach|].
  apply fr_body; [assumption|reflexivity|assumption|lra|]. unfold fr_ii. clear HL GS LMax.
  apply but_cases. apply lm_cases; cbv [Z.eqb Pos.eqb andb]; cbv iota.
  all: try exact I.
  all: try (rewrite fr_int_off by discriminate; unfold ach_cone2_tab; tab_read; ring).
  all: unfold ach_cone2_tab; tab_read; rw_nrm; fr_open; fr_calc; piz; field [s2s s3s s5s s7s s11s]; repeat split; ne0.
Qed.
Lemma ach_cone2_20 rho h r1 r2 : h <> 0%R ->
  tabf (ach_cone2_tab rho h r1 r2) 2 0 = RtoC rho * (RtoC (nrm 2 0) * fr_int 0 h r1 r2 2 0)
    - RtoC (sqrt PI / (8 * sqrt 5) * rho * h * (r1 ^ 2 * r2) * (r1 + 2 * r2)).
Proof.
  intros Hh. unfold ach_cone2_tab; tab_read; rw_nrm; fr_open; fr_calc; piz; field [s2s s3s s5s s7s s11s]; repeat split; ne0.
Qed.

