(* The closed forms of qlmACH.py are volume integrals: trapezoid and cones. *)
From Verif Require Export AchProofs2.
From Verif Require Import ClebschGordanProofs TranslationsProofs.
From Verif Require Import Cplx.
Open Scope C_scope.

Ltac pc := cbv [pint ppow pmul padd pscal map Z.to_nat Pos.to_nat Pos.iter_op Nat.add Init.Nat.add].
Lemma but_cases (P : Z -> Z -> Prop) l0 m0 : (forall l m, (0 <= m <= l)%Z -> (l <= 5)%Z -> (if ((l =? l0) && (m =? m0))%bool%Z then True else P l m)) ->
  forall l m, (0 <= m <= l)%Z -> (l <= 5)%Z -> but l0 m0 l m = true -> P l m.
Proof. intros H l m Hm Hl Hb. specialize (H l m Hm Hl). unfold but in Hb. destruct (_ && _)%bool; [discriminate|exact H]. Qed.
Lemma trap_volume t w1 w2 h : h <> 0%R -> mu_trap t w1 w2 h 0 0 0 = (t * h * ((w1 + w2) / 2))%R.
Proof. intros Hh. unfold mu_trap, zval, even2. zc. cbv iota. pc. zc. rw_zf. rw_pw. field. assumption. Qed.
Lemma ach_trapezoid_guard LMax rho t w1 w2 h q : ach_trapezoid LMax rho t w1 w2 h = Ok q ->
  (0 < h)%R /\ (0 < t)%R /\ (0 <= w1)%R /\ (0 <= w2)%R /\ (0 < w1 + w2)%R /\ q = ach_finish LMax (ach_trapezoid_tab rho t w1 w2 h).
Proof.
  intros E. unfold ach_trapezoid in E. destruct (_ || _)%bool eqn:G; [discriminate|]. destruct (is0 _) eqn:G0; [discriminate|]. apply Ok_inj in E.
  apply Bool.orb_false_elim in G. destruct G as [G G4]. apply Bool.orb_false_elim in G. destruct G as [G G3]. apply Bool.orb_false_elim in G. destruct G as [G1 G2].
  apply rle_false in G1. apply rle_false in G2. apply rlt_false in G3. apply rlt_false in G4.
  assert (w1 + w2 <> 0)%R by (intros E0; rewrite E0 in G0; unfold is0 in G0; destruct (Req_EM_T (0 / 2) 0) as [|N]; [discriminate|apply N; field]).
  repeat split; (assumption || lra || (symmetry; assumption)).
Qed.
Lemma ach_trapezoid_body LMax rho t w1 w2 h q : (0 <= LMax)%Z -> ach_trapezoid LMax rho t w1 w2 h = Ok q ->
  deg q = LMax /\ density_moments (but 4 4) q rho (trapezoidal_plate t w1 w2 h).
Proof.
  intros HL E. apply ach_trapezoid_guard in E. destruct E as (Gh & Gt & G1 & G2 & G0 & ->).
  assert (Hh : h <> 0%R) by lra. assert (Hw : (w1 + w2 <> 0)%R) by lra.
  split; [apply deg_ach|]. set (V := (t * h * ((w1 + w2) / 2))%R).
  assert (HV : (0 < V)%R) by (unfold V; repeat apply Rmult_lt_0_compat; lra).
  apply (ach_body _ (mono_int (mu_trap t w1 w2 h)) rho V); [assumption|reflexivity|apply regular_trap|lra| | |].
  - unfold V. rewrite <- trap_volume by assumption. apply mono_000; [apply regular_trap|intros; now apply trap_mono].
  - intros l m Hm _ _. apply mono_solid; [apply regular_trap|intros; now apply trap_mono|assumption].
  - intros l m Hm Hl Hb. rewrite (Rabs_pos_eq V) by lra. replace (V / V)%R with 1%R by (field; lra). rewrite Rmult_1_r. clear V HV. revert l m Hm Hl Hb.
    apply but_cases. apply lm_cases; cbv [Z.eqb Pos.eqb andb]; cbv iota.
    all: try exact I.
    all: unfold ach_trapezoid_tab; ach_open; unfold mu_trap, zval, even2; zc; cbv iota; pc; zc; rw_zf; rw_pw; apply C_eq; cbn [Cmult Cplus Cminus Copp Cdiv Cinv Ci RtoC fst snd Re Im]; sqsplit; sqfin.
Qed.
(* the (4,4) entry differs from the volume integral by this amount *)
Lemma ach_trapezoid_44 rho t w1 w2 h : h <> 0%R -> (w1 + w2 <> 0)%R -> let w := ((w1 + w2) / 2)%R in
  tabf (ach_trapezoid_tab rho t w1 w2 h) 4 4 =
  RtoC rho * (RtoC (nrm 4 4) * mono_int (mu_trap t w1 w2 h) 4 4)
   - RtoC (rho * h * t * w * sqrt 7 * (48 * h ^ 4 - 40 * h ^ 2 * w ^ 2 + 3 * w ^ 4) / (128 * sqrt 10 * sqrt PI)).
Proof.
  intros Hh Hw w. unfold w. clear w.
  unfold ach_trapezoid_tab; ach_open; unfold mu_trap, zval, even2; zc; cbv iota; pc; zc; rw_zf; rw_pw; apply C_eq; cbn [Cmult Cplus Cminus Copp Cdiv Cinv Ci RtoC fst snd Re Im]; sqsplit; sqfin.
Qed.
