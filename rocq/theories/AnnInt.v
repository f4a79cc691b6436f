(* The integrals of the outer harmonics over a standing annular sector, degrees 0 to 5 (generated cases). *)
From Verif Require Export AchProofs.
From Verif Require Import Legendre.
From Verif Require Import Cplx.
Open Scope R_scope.

(* the value at azimuth 0 *)
Lemma A_0 r : A_ r 0 = RtoC (- (r / 2)). Proof. apply C_eq; unfold A_; simpl; field. Qed.
Lemma B_0 r : B_ r 0 = RtoC (r / 2). Proof. apply C_eq; unfold B_; simpl; field. Qed.
Ltac sol_lm := rewrite solid_terms, A_0, B_0 by lia;
  match goal with |- zsum 0 ?n _ = _ => let n' := eval compute in n in change n with n' end;
  unfold zsum; cbv [Z.sub Z.opp Z.add Z.pos_sub Z.to_nat Pos.pred_double Pos.to_nat Pos.iter_op Nat.add nsum];
  cbv [Z.of_nat Z.sub Z.opp Z.add Z.mul Pos.mul Z.pos_sub Pos.pred_double Pos.of_succ_nat Pos.succ Pos.add Z.double Z.succ_double Z.pred_double];
  rewrite ?dp_RtoC by lia; rw_zf; rw_pw; apply C_eq; cbn [Cmult Cplus Copp RtoC fst snd Re Im]; field.

(* distance from the axis point *)
Definition dd (r z : R) : R := sqrt (r * r + z * z).
Lemma sq_pos r : r <> 0 -> 0 < r * r. Proof. intros. now apply Rsqr_pos_lt. Qed.
Lemma dd_arg r z : r <> 0 -> 0 < r * r + z * z.
Proof. intros H. assert (H1 := sq_pos r H). assert (H2 := Rle_0_sqr z). unfold Rsqr in H2. lra. Qed.
Lemma dd_pos r z : r <> 0 -> 0 < dd r z. Proof. intros H. apply sqrt_lt_R0, dd_arg, H. Qed.
Lemma dd_sq r z : dd r z * dd r z = r * r + z * z.
Proof. apply sqrt_sqrt. assert (H1 := Rle_0_sqr r). assert (H2 := Rle_0_sqr z). unfold Rsqr in *. lra. Qed.
Lemma dd_0 r : 0 <= r -> dd r 0 = r.
Proof. intros H. unfold dd. rewrite Rmult_0_l, Rplus_0_r. now apply sqrt_square. Qed.
Lemma dd_zpos r z : r <> 0 -> 0 < z + dd r z.
Proof.
  intros H. assert (P := dd_pos r z H). assert (Q := dd_sq r z). assert (G := sq_pos r H). destruct (Rle_dec 0 z); [lra|].
  assert (- z < dd r z); [|lra]. apply Rsqr_incrst_0; unfold Rsqr; lra.
Qed.
Lemma dd_dz (r z : R) : r <> 0 -> is_derive (dd r) z (z / dd r z).
Proof.
  intros H. unfold dd. assert (G := dd_arg r z H). assert (P := dd_pos r z H). unfold dd in P.
  auto_derive; [exact G|]. field. lra.
Qed.
Lemma dd_dr (h r : R) : r <> 0 -> is_derive (fun r => dd r h) r (r / dd r h).
Proof.
  intros H. unfold dd. assert (G := dd_arg r h H). assert (P := dd_pos r h H). unfold dd in P.
  auto_derive; [exact G|]. field. lra.
Qed.

(* iterated integral over r in [r0,r1] and z in [0,h] of r f(r,z) *)
Definition rz_int (h r0 r1 : R) (f : R -> R -> R) (v : R) : Prop :=
  exists g : R -> R, (forall r, is_RInt (fun z => r * f r z) 0 h (g r)) /\ is_RInt g r0 r1 v.

Lemma rz_core (h r0 r1 : R) (f Z : R -> R -> R) (g0 B : R -> R) : 0 < h -> 0 < r0 -> r0 <= r1 ->
  (forall r z : R, r <> 0 -> is_derive (Z r) z (f r z)) ->
  (forall r z : R, r <> 0 -> ex_derive (f r) z) ->
  (forall r : R, 0 < r -> g0 r = r * (Z r h - Z r 0)) ->
  (forall r : R, 0 < r -> is_derive B r (g0 r)) ->
  (forall r : R, 0 < r -> ex_derive g0 r) ->
  rz_int h r0 r1 f (B r1 - B r0).
Proof.
  intros Hh H0 H1 HZ Hf Hg HB Hg'.
  exists (fun r => r * (Z r h - Z r 0)). split.
  - intros r. destruct (Req_dec r 0) as [->|Hr].
    + apply (is_RInt_ext (fun _ : R => 0)); [intros; now rewrite Rmult_0_l|].
      rewrite Rmult_0_l. replace 0 with (scal (h - 0) 0) at 2 by (unfold scal; cbn; unfold mult; cbn; ring). apply @is_RInt_const.
    + apply (is_RInt_scal (fun z => f r z) 0 h r (Z r h - Z r 0)).
      apply (is_RInt_derive (V := R_CompleteNormedModule) (Z r) (f r)).
      * intros z _. now apply HZ.
      * intros z _. apply (ex_derive_continuous (f r)). now apply Hf.
  - apply (is_RInt_ext g0).
    + intros r Hr. rewrite Rmin_left, Rmax_right in Hr by lra. apply Hg. lra.
    + apply (is_RInt_derive (V := R_CompleteNormedModule) B g0); intros r Hr; rewrite Rmin_left, Rmax_right in Hr by lra.
      * apply HB. lra.
      * apply (ex_derive_continuous g0). apply Hg'. lra.
Qed.
(* tactics for the five obligations *)
Ltac sides := repeat split; try (apply Rdiv_lt_0_compat); try lra; repeat (apply Rmult_integral_contrapositive_currified || apply pow_nonzero || apply Rinv_neq_0_compat); try (apply Rgt_not_eq; lra).
Ltac use_D D := repeat match goal with |- context [Derive ?f ?x] => rewrite (is_derive_unique f x _ D) end.
Ltac kz r z D := let d := fresh "d" in let P := fresh "P" in let Q := fresh "Q" in let U := fresh "U" in
  assert (P := dd_pos r z ltac:(assumption || lra)); assert (Q := dd_sq r z); assert (U := dd_zpos r z ltac:(assumption || lra));
  match goal with
  | |- is_derive _ _ _ => auto_derive; [|use_D D; set (d := dd r z) in *; clearbody d; field [Q]; sides]
  | |- ex_derive _ _ => auto_derive
  end;
  repeat split; try (eexists; exact D); try (set (d := dd r z) in *; clearbody d; sides).

Lemma sol_00 r z : solid 0 0 r 0 z = RtoC ((1) * r ^ 0 * z ^ 0).
Proof. sol_lm. Qed.
Definition rzB_00 (h r : R) : R := (1 / 2) * (h * (dd r h) + r ^ 2 * (ln (h + (dd r h)) - ln r)).
Lemma rz_00 h r0 r1 : 0 < h -> 0 < r0 -> r0 <= r1 ->
  rz_int h r0 r1 (fun r z => ((1) * r ^ 0 * z ^ 0) / dd r z ^ 1) (rzB_00 h r1 - rzB_00 h r0).
Proof.
  intros Hh H0 H1. apply (rz_core h r0 r1 _ (fun r z => ln (z + (dd r z)))
    (fun r => r * (ln (h + (dd r h)) - (ln (r))))
    (rzB_00 h)); try assumption; clear r0 r1 H0 H1; unfold rzB_00.
  - intros r z Hr. assert (D := dd_dz r z Hr). kz r z D.
  - intros r z Hr. assert (D := dd_dz r z Hr). kz r z D.
  - intros r Hr. cbv beta. rewrite dd_0 by lra. rewrite ?Rplus_0_l. reflexivity.
  - intros r Hr. assert (D := dd_dr h r ltac:(lra)). kz r h D.
  - intros r Hr. assert (D := dd_dr h r ltac:(lra)). kz r h D.
Qed.

Lemma sol_10 r z : solid 1 0 r 0 z = RtoC ((1) * r ^ 0 * z ^ 1).
Proof. sol_lm. Qed.
Definition rzB_10 (h r : R) : R := (1) * (r - (dd r h)).
Lemma rz_10 h r0 r1 : 0 < h -> 0 < r0 -> r0 <= r1 ->
  rz_int h r0 r1 (fun r z => ((1) * r ^ 0 * z ^ 1) / dd r z ^ 3) (rzB_10 h r1 - rzB_10 h r0).
Proof.
  intros Hh H0 H1. apply (rz_core h r0 r1 _ (fun r z => - ((1) * r ^ 0 * z ^ 0) / ((dd r z) ^ 1 * 1))
    (fun r => r * (- ((1) * r ^ 0 * h ^ 0) / ((dd r h) ^ 1 * 1) - (- ((1) * r ^ 0 * 0 ^ 0) / (r ^ 1 * 1))))
    (rzB_10 h)); try assumption; clear r0 r1 H0 H1; unfold rzB_10.
  - intros r z Hr. assert (D := dd_dz r z Hr). kz r z D.
  - intros r z Hr. assert (D := dd_dz r z Hr). kz r z D.
  - intros r Hr. cbv beta. rewrite dd_0 by lra. rewrite ?Rplus_0_l. reflexivity.
  - intros r Hr. assert (D := dd_dr h r ltac:(lra)). kz r h D.
  - intros r Hr. assert (D := dd_dr h r ltac:(lra)). kz r h D.
Qed.

Lemma sol_11 r z : solid 1 1 r 0 z = RtoC ((-1 / 2) * r ^ 1 * z ^ 0).
Proof. sol_lm. Qed.
Definition rzB_11 (h r : R) : R := (-1 / 2) * (h * ln (r + (dd r h))).
Lemma rz_11 h r0 r1 : 0 < h -> 0 < r0 -> r0 <= r1 ->
  rz_int h r0 r1 (fun r z => ((-1 / 2) * r ^ 1 * z ^ 0) / dd r z ^ 3) (rzB_11 h r1 - rzB_11 h r0).
Proof.
  intros Hh H0 H1. apply (rz_core h r0 r1 _ (fun r z => (-1 / 2) / r ^ 1 * ((1) * (z / (dd r z)) ^ 1))
    (fun r => r * ((-1 / 2) / r ^ 1 * ((1) * (h / (dd r h)) ^ 1) - ((-1 / 2) / r ^ 1 * ((1) * (0 / r) ^ 1))))
    (rzB_11 h)); try assumption; clear r0 r1 H0 H1; unfold rzB_11.
  - intros r z Hr. assert (D := dd_dz r z Hr). kz r z D.
  - intros r z Hr. assert (D := dd_dz r z Hr). kz r z D.
  - intros r Hr. cbv beta. rewrite dd_0 by lra. rewrite ?Rplus_0_l. reflexivity.
  - intros r Hr. assert (D := dd_dr h r ltac:(lra)). kz r h D.
  - intros r Hr. assert (D := dd_dr h r ltac:(lra)). kz r h D.
Qed.

Lemma sol_20 r z : solid 2 0 r 0 z = RtoC ((1 / 2) * r ^ 0 * z ^ 2 + (-1 / 4) * r ^ 2 * z ^ 0).
Proof. sol_lm. Qed.
Definition rzB_20 (h r : R) : R := (1 / 4) * (h / (dd r h)).
Lemma rz_20 h r0 r1 : 0 < h -> 0 < r0 -> r0 <= r1 ->
  rz_int h r0 r1 (fun r z => ((1 / 2) * r ^ 0 * z ^ 2 + (-1 / 4) * r ^ 2 * z ^ 0) / dd r z ^ 5) (rzB_20 h r1 - rzB_20 h r0).
Proof.
  intros Hh H0 H1. apply (rz_core h r0 r1 _ (fun r z => - ((1) * r ^ 0 * z ^ 1) / ((dd r z) ^ 3 * 4))
    (fun r => r * (- ((1) * r ^ 0 * h ^ 1) / ((dd r h) ^ 3 * 4) - (- ((1) * r ^ 0 * 0 ^ 1) / (r ^ 3 * 4))))
    (rzB_20 h)); try assumption; clear r0 r1 H0 H1; unfold rzB_20.
  - intros r z Hr. assert (D := dd_dz r z Hr). kz r z D.
  - intros r z Hr. assert (D := dd_dz r z Hr). kz r z D.
  - intros r Hr. cbv beta. rewrite dd_0 by lra. rewrite ?Rplus_0_l. reflexivity.
  - intros r Hr. assert (D := dd_dr h r ltac:(lra)). kz r h D.
  - intros r Hr. assert (D := dd_dr h r ltac:(lra)). kz r h D.
Qed.

Lemma sol_21 r z : solid 2 1 r 0 z = RtoC ((-1 / 2) * r ^ 1 * z ^ 1).
Proof. sol_lm. Qed.
Definition rzB_21 (h r : R) : R := (-1 / 6) * (r / (dd r h) + ln (r / (r + (dd r h)))).
Lemma rz_21 h r0 r1 : 0 < h -> 0 < r0 -> r0 <= r1 ->
  rz_int h r0 r1 (fun r z => ((-1 / 2) * r ^ 1 * z ^ 1) / dd r z ^ 5) (rzB_21 h r1 - rzB_21 h r0).
Proof.
  intros Hh H0 H1. apply (rz_core h r0 r1 _ (fun r z => - ((-1 / 2) * r ^ 1 * z ^ 0) / ((dd r z) ^ 3 * 3))
    (fun r => r * (- ((-1 / 2) * r ^ 1 * h ^ 0) / ((dd r h) ^ 3 * 3) - (- ((-1 / 2) * r ^ 1 * 0 ^ 0) / (r ^ 3 * 3))))
    (rzB_21 h)); try assumption; clear r0 r1 H0 H1; unfold rzB_21.
  - intros r z Hr. assert (D := dd_dz r z Hr). kz r z D.
  - intros r z Hr. assert (D := dd_dz r z Hr). kz r z D.
  - intros r Hr. cbv beta. rewrite dd_0 by lra. rewrite ?Rplus_0_l. reflexivity.
  - intros r Hr. assert (D := dd_dr h r ltac:(lra)). kz r h D.
  - intros r Hr. assert (D := dd_dr h r ltac:(lra)). kz r h D.
Qed.

Lemma sol_22 r z : solid 2 2 r 0 z = RtoC ((1 / 8) * r ^ 2 * z ^ 0).
Proof. sol_lm. Qed.
Definition rzB_22 (h r : R) : R := (1 / 24) * (- h / (dd r h) + 2 * ln ((h + (dd r h)) / r) * (-1)).
Lemma rz_22 h r0 r1 : 0 < h -> 0 < r0 -> r0 <= r1 ->
  rz_int h r0 r1 (fun r z => ((1 / 8) * r ^ 2 * z ^ 0) / dd r z ^ 5) (rzB_22 h r1 - rzB_22 h r0).
Proof.
  intros Hh H0 H1. apply (rz_core h r0 r1 _ (fun r z => (1 / 8) / r ^ 2 * ((1) * (z / (dd r z)) ^ 1 + (-1 / 3) * (z / (dd r z)) ^ 3))
    (fun r => r * ((1 / 8) / r ^ 2 * ((1) * (h / (dd r h)) ^ 1 + (-1 / 3) * (h / (dd r h)) ^ 3) - ((1 / 8) / r ^ 2 * ((1) * (0 / r) ^ 1 + (-1 / 3) * (0 / r) ^ 3))))
    (rzB_22 h)); try assumption; clear r0 r1 H0 H1; unfold rzB_22.
  - intros r z Hr. assert (D := dd_dz r z Hr). kz r z D.
  - intros r z Hr. assert (D := dd_dz r z Hr). kz r z D.
  - intros r Hr. cbv beta. rewrite dd_0 by lra. rewrite ?Rplus_0_l. reflexivity.
  - intros r Hr. assert (D := dd_dr h r ltac:(lra)). kz r h D.
  - intros r Hr. assert (D := dd_dr h r ltac:(lra)). kz r h D.
Qed.

Lemma sol_30 r z : solid 3 0 r 0 z = RtoC ((1 / 6) * r ^ 0 * z ^ 3 + (-1 / 4) * r ^ 2 * z ^ 1).
Proof. sol_lm. Qed.
Definition rzB_30 (h r : R) : R := (1 / 36) * (1 / r - r ^ 2 / (dd r h) ^ 3).
Lemma rz_30 h r0 r1 : 0 < h -> 0 < r0 -> r0 <= r1 ->
  rz_int h r0 r1 (fun r z => ((1 / 6) * r ^ 0 * z ^ 3 + (-1 / 4) * r ^ 2 * z ^ 1) / dd r z ^ 7) (rzB_30 h r1 - rzB_30 h r0).
Proof.
  intros Hh H0 H1. apply (rz_core h r0 r1 _ (fun r z => - ((1 / 2) * r ^ 0 * z ^ 2 + (-1 / 4) * r ^ 2 * z ^ 0) / ((dd r z) ^ 5 * 9))
    (fun r => r * (- ((1 / 2) * r ^ 0 * h ^ 2 + (-1 / 4) * r ^ 2 * h ^ 0) / ((dd r h) ^ 5 * 9) - (- ((1 / 2) * r ^ 0 * 0 ^ 2 + (-1 / 4) * r ^ 2 * 0 ^ 0) / (r ^ 5 * 9))))
    (rzB_30 h)); try assumption; clear r0 r1 H0 H1; unfold rzB_30.
  - intros r z Hr. assert (D := dd_dz r z Hr). kz r z D.
  - intros r z Hr. assert (D := dd_dz r z Hr). kz r z D.
  - intros r Hr. cbv beta. rewrite dd_0 by lra. rewrite ?Rplus_0_l. reflexivity.
  - intros r Hr. assert (D := dd_dr h r ltac:(lra)). kz r h D.
  - intros r Hr. assert (D := dd_dr h r ltac:(lra)). kz r h D.
Qed.

Lemma sol_31 r z : solid 3 1 r 0 z = RtoC ((-1 / 4) * r ^ 1 * z ^ 2 + (1 / 16) * r ^ 3 * z ^ 0).
Proof. sol_lm. Qed.
Definition rzB_31 (h r : R) : R := (1 / 48) * (r ^ 3 / (dd r h) ^ 3 / h).
Lemma rz_31 h r0 r1 : 0 < h -> 0 < r0 -> r0 <= r1 ->
  rz_int h r0 r1 (fun r z => ((-1 / 4) * r ^ 1 * z ^ 2 + (1 / 16) * r ^ 3 * z ^ 0) / dd r z ^ 7) (rzB_31 h r1 - rzB_31 h r0).
Proof.
  intros Hh H0 H1. apply (rz_core h r0 r1 _ (fun r z => - ((-1 / 2) * r ^ 1 * z ^ 1) / ((dd r z) ^ 5 * 8))
    (fun r => r * (- ((-1 / 2) * r ^ 1 * h ^ 1) / ((dd r h) ^ 5 * 8) - (- ((-1 / 2) * r ^ 1 * 0 ^ 1) / (r ^ 5 * 8))))
    (rzB_31 h)); try assumption; clear r0 r1 H0 H1; unfold rzB_31.
  - intros r z Hr. assert (D := dd_dz r z Hr). kz r z D.
  - intros r z Hr. assert (D := dd_dz r z Hr). kz r z D.
  - intros r Hr. cbv beta. rewrite dd_0 by lra. rewrite ?Rplus_0_l. reflexivity.
  - intros r Hr. assert (D := dd_dr h r ltac:(lra)). kz r h D.
  - intros r Hr. assert (D := dd_dr h r ltac:(lra)). kz r h D.
Qed.

Lemma sol_32 r z : solid 3 2 r 0 z = RtoC ((1 / 8) * r ^ 2 * z ^ 1).
Proof. sol_lm. Qed.
Definition rzB_32 (h r : R) : R := (-1 / 120) * (3 / r - (3 * r ^ 2 + 2 * h ^ 2) / (dd r h) ^ 3).
Lemma rz_32 h r0 r1 : 0 < h -> 0 < r0 -> r0 <= r1 ->
  rz_int h r0 r1 (fun r z => ((1 / 8) * r ^ 2 * z ^ 1) / dd r z ^ 7) (rzB_32 h r1 - rzB_32 h r0).
Proof.
  intros Hh H0 H1. apply (rz_core h r0 r1 _ (fun r z => - ((1 / 8) * r ^ 2 * z ^ 0) / ((dd r z) ^ 5 * 5))
    (fun r => r * (- ((1 / 8) * r ^ 2 * h ^ 0) / ((dd r h) ^ 5 * 5) - (- ((1 / 8) * r ^ 2 * 0 ^ 0) / (r ^ 5 * 5))))
    (rzB_32 h)); try assumption; clear r0 r1 H0 H1; unfold rzB_32.
  - intros r z Hr. assert (D := dd_dz r z Hr). kz r z D.
  - intros r z Hr. assert (D := dd_dz r z Hr). kz r z D.
  - intros r Hr. cbv beta. rewrite dd_0 by lra. rewrite ?Rplus_0_l. reflexivity.
  - intros r Hr. assert (D := dd_dr h r ltac:(lra)). kz r h D.
  - intros r Hr. assert (D := dd_dr h r ltac:(lra)). kz r h D.
Qed.

Lemma sol_33 r z : solid 3 3 r 0 z = RtoC ((-1 / 48) * r ^ 3 * z ^ 0).
Proof. sol_lm. Qed.
Definition rzB_33 (h r : R) : R := (1 / 720) * ((8 * h ^ 4 + 12 * h ^ 2 * r ^ 2 + 3 * r ^ 4) / (r * (dd r h) ^ 3) / h).
Lemma rz_33 h r0 r1 : 0 < h -> 0 < r0 -> r0 <= r1 ->
  rz_int h r0 r1 (fun r z => ((-1 / 48) * r ^ 3 * z ^ 0) / dd r z ^ 7) (rzB_33 h r1 - rzB_33 h r0).
Proof.
  intros Hh H0 H1. apply (rz_core h r0 r1 _ (fun r z => (-1 / 48) / r ^ 3 * ((1) * (z / (dd r z)) ^ 1 + (-2 / 3) * (z / (dd r z)) ^ 3 + (1 / 5) * (z / (dd r z)) ^ 5))
    (fun r => r * ((-1 / 48) / r ^ 3 * ((1) * (h / (dd r h)) ^ 1 + (-2 / 3) * (h / (dd r h)) ^ 3 + (1 / 5) * (h / (dd r h)) ^ 5) - ((-1 / 48) / r ^ 3 * ((1) * (0 / r) ^ 1 + (-2 / 3) * (0 / r) ^ 3 + (1 / 5) * (0 / r) ^ 5))))
    (rzB_33 h)); try assumption; clear r0 r1 H0 H1; unfold rzB_33.
  - intros r z Hr. assert (D := dd_dz r z Hr). kz r z D.
  - intros r z Hr. assert (D := dd_dz r z Hr). kz r z D.
  - intros r Hr. cbv beta. rewrite dd_0 by lra. rewrite ?Rplus_0_l. reflexivity.
  - intros r Hr. assert (D := dd_dr h r ltac:(lra)). kz r h D.
  - intros r Hr. assert (D := dd_dr h r ltac:(lra)). kz r h D.
Qed.

Lemma sol_40 r z : solid 4 0 r 0 z = RtoC ((1 / 24) * r ^ 0 * z ^ 4 + (-1 / 8) * r ^ 2 * z ^ 2 + (1 / 64) * r ^ 4 * z ^ 0).
Proof. sol_lm. Qed.
Definition rzB_40 (h r : R) : R := (1 / 192) * (- h * r ^ 2 / (dd r h) ^ 5).
Lemma rz_40 h r0 r1 : 0 < h -> 0 < r0 -> r0 <= r1 ->
  rz_int h r0 r1 (fun r z => ((1 / 24) * r ^ 0 * z ^ 4 + (-1 / 8) * r ^ 2 * z ^ 2 + (1 / 64) * r ^ 4 * z ^ 0) / dd r z ^ 9) (rzB_40 h r1 - rzB_40 h r0).
Proof.
  intros Hh H0 H1. apply (rz_core h r0 r1 _ (fun r z => - ((1 / 6) * r ^ 0 * z ^ 3 + (-1 / 4) * r ^ 2 * z ^ 1) / ((dd r z) ^ 7 * 16))
    (fun r => r * (- ((1 / 6) * r ^ 0 * h ^ 3 + (-1 / 4) * r ^ 2 * h ^ 1) / ((dd r h) ^ 7 * 16) - (- ((1 / 6) * r ^ 0 * 0 ^ 3 + (-1 / 4) * r ^ 2 * 0 ^ 1) / (r ^ 7 * 16))))
    (rzB_40 h)); try assumption; clear r0 r1 H0 H1; unfold rzB_40.
  - intros r z Hr. assert (D := dd_dz r z Hr). kz r z D.
  - intros r z Hr. assert (D := dd_dz r z Hr). kz r z D.
  - intros r Hr. cbv beta. rewrite dd_0 by lra. rewrite ?Rplus_0_l. reflexivity.
  - intros r Hr. assert (D := dd_dr h r ltac:(lra)). kz r h D.
  - intros r Hr. assert (D := dd_dr h r ltac:(lra)). kz r h D.
Qed.

Lemma sol_41 r z : solid 4 1 r 0 z = RtoC ((-1 / 12) * r ^ 1 * z ^ 3 + (1 / 16) * r ^ 3 * z ^ 1).
Proof. sol_lm. Qed.
Definition rzB_41 (h r : R) : R := (1 / 1440) * ((8 * h ^ 2 + 2 * r ^ 2) * r ^ 3 / (h ^ 2 * (dd r h) ^ 5) - 3 / r ^ 2).
Lemma rz_41 h r0 r1 : 0 < h -> 0 < r0 -> r0 <= r1 ->
  rz_int h r0 r1 (fun r z => ((-1 / 12) * r ^ 1 * z ^ 3 + (1 / 16) * r ^ 3 * z ^ 1) / dd r z ^ 9) (rzB_41 h r1 - rzB_41 h r0).
Proof.
  intros Hh H0 H1. apply (rz_core h r0 r1 _ (fun r z => - ((-1 / 4) * r ^ 1 * z ^ 2 + (1 / 16) * r ^ 3 * z ^ 0) / ((dd r z) ^ 7 * 15))
    (fun r => r * (- ((-1 / 4) * r ^ 1 * h ^ 2 + (1 / 16) * r ^ 3 * h ^ 0) / ((dd r h) ^ 7 * 15) - (- ((-1 / 4) * r ^ 1 * 0 ^ 2 + (1 / 16) * r ^ 3 * 0 ^ 0) / (r ^ 7 * 15))))
    (rzB_41 h)); try assumption; clear r0 r1 H0 H1; unfold rzB_41.
  - intros r z Hr. assert (D := dd_dz r z Hr). kz r z D.
  - intros r z Hr. assert (D := dd_dz r z Hr). kz r z D.
  - intros r Hr. cbv beta. rewrite dd_0 by lra. rewrite ?Rplus_0_l. reflexivity.
  - intros r Hr. assert (D := dd_dr h r ltac:(lra)). kz r h D.
  - intros r Hr. assert (D := dd_dr h r ltac:(lra)). kz r h D.
Qed.

Lemma sol_42 r z : solid 4 2 r 0 z = RtoC ((1 / 16) * r ^ 2 * z ^ 2 + (-1 / 96) * r ^ 4 * z ^ 0).
Proof. sol_lm. Qed.
Definition rzB_42 (h r : R) : R := (1 / 1440) * (h * (2 * h ^ 2 + 5 * r ^ 2) / (dd r h) ^ 5).
Lemma rz_42 h r0 r1 : 0 < h -> 0 < r0 -> r0 <= r1 ->
  rz_int h r0 r1 (fun r z => ((1 / 16) * r ^ 2 * z ^ 2 + (-1 / 96) * r ^ 4 * z ^ 0) / dd r z ^ 9) (rzB_42 h r1 - rzB_42 h r0).
Proof.
  intros Hh H0 H1. apply (rz_core h r0 r1 _ (fun r z => - ((1 / 8) * r ^ 2 * z ^ 1) / ((dd r z) ^ 7 * 12))
    (fun r => r * (- ((1 / 8) * r ^ 2 * h ^ 1) / ((dd r h) ^ 7 * 12) - (- ((1 / 8) * r ^ 2 * 0 ^ 1) / (r ^ 7 * 12))))
    (rzB_42 h)); try assumption; clear r0 r1 H0 H1; unfold rzB_42.
  - intros r z Hr. assert (D := dd_dz r z Hr). kz r z D.
  - intros r z Hr. assert (D := dd_dz r z Hr). kz r z D.
  - intros r Hr. cbv beta. rewrite dd_0 by lra. rewrite ?Rplus_0_l. reflexivity.
  - intros r Hr. assert (D := dd_dr h r ltac:(lra)). kz r h D.
  - intros r Hr. assert (D := dd_dr h r ltac:(lra)). kz r h D.
Qed.

Lemma sol_43 r z : solid 4 3 r 0 z = RtoC ((-1 / 48) * r ^ 3 * z ^ 1).
Proof. sol_lm. Qed.
Definition rzB_43 (h r : R) : R := (1 / 3360) * (5 / r ^ 2 + 2 * r ^ 5 / (dd r h) ^ 5 / h ^ 2).
Lemma rz_43 h r0 r1 : 0 < h -> 0 < r0 -> r0 <= r1 ->
  rz_int h r0 r1 (fun r z => ((-1 / 48) * r ^ 3 * z ^ 1) / dd r z ^ 9) (rzB_43 h r1 - rzB_43 h r0).
Proof.
  intros Hh H0 H1. apply (rz_core h r0 r1 _ (fun r z => - ((-1 / 48) * r ^ 3 * z ^ 0) / ((dd r z) ^ 7 * 7))
    (fun r => r * (- ((-1 / 48) * r ^ 3 * h ^ 0) / ((dd r h) ^ 7 * 7) - (- ((-1 / 48) * r ^ 3 * 0 ^ 0) / (r ^ 7 * 7))))
    (rzB_43 h)); try assumption; clear r0 r1 H0 H1; unfold rzB_43.
  - intros r z Hr. assert (D := dd_dz r z Hr). kz r z D.
  - intros r z Hr. assert (D := dd_dz r z Hr). kz r z D.
  - intros r Hr. cbv beta. rewrite dd_0 by lra. rewrite ?Rplus_0_l. reflexivity.
  - intros r Hr. assert (D := dd_dr h r ltac:(lra)). kz r h D.
  - intros r Hr. assert (D := dd_dr h r ltac:(lra)). kz r h D.
Qed.

Lemma sol_44 r z : solid 4 4 r 0 z = RtoC ((1 / 384) * r ^ 4 * z ^ 0).
Proof. sol_lm. Qed.
Definition rzB_44 (h r : R) : R := (1 / 40320) * (- h * (24 * h ^ 4 + 56 * h ^ 2 * r ^ 2 + 35 * r ^ 4) / (r ^ 2 * (dd r h) ^ 5)).
Lemma rz_44 h r0 r1 : 0 < h -> 0 < r0 -> r0 <= r1 ->
  rz_int h r0 r1 (fun r z => ((1 / 384) * r ^ 4 * z ^ 0) / dd r z ^ 9) (rzB_44 h r1 - rzB_44 h r0).
Proof.
  intros Hh H0 H1. apply (rz_core h r0 r1 _ (fun r z => (1 / 384) / r ^ 4 * ((1) * (z / (dd r z)) ^ 1 + (-1) * (z / (dd r z)) ^ 3 + (3 / 5) * (z / (dd r z)) ^ 5 + (-1 / 7) * (z / (dd r z)) ^ 7))
    (fun r => r * ((1 / 384) / r ^ 4 * ((1) * (h / (dd r h)) ^ 1 + (-1) * (h / (dd r h)) ^ 3 + (3 / 5) * (h / (dd r h)) ^ 5 + (-1 / 7) * (h / (dd r h)) ^ 7) - ((1 / 384) / r ^ 4 * ((1) * (0 / r) ^ 1 + (-1) * (0 / r) ^ 3 + (3 / 5) * (0 / r) ^ 5 + (-1 / 7) * (0 / r) ^ 7))))
    (rzB_44 h)); try assumption; clear r0 r1 H0 H1; unfold rzB_44.
  - intros r z Hr. assert (D := dd_dz r z Hr). kz r z D.
  - intros r z Hr. assert (D := dd_dz r z Hr). kz r z D.
  - intros r Hr. cbv beta. rewrite dd_0 by lra. rewrite ?Rplus_0_l. reflexivity.
  - intros r Hr. assert (D := dd_dr h r ltac:(lra)). kz r h D.
  - intros r Hr. assert (D := dd_dr h r ltac:(lra)). kz r h D.
Qed.

Lemma sol_50 r z : solid 5 0 r 0 z = RtoC ((1 / 120) * r ^ 0 * z ^ 5 + (-1 / 24) * r ^ 2 * z ^ 3 + (1 / 64) * r ^ 4 * z ^ 1).
Proof. sol_lm. Qed.
Definition rzB_50 (h r : R) : R := (1 / 4800) * (- (1 / r ^ 3 + r ^ 2 * (4 * h ^ 2 - r ^ 2) / (dd r h) ^ 7)).
Lemma rz_50 h r0 r1 : 0 < h -> 0 < r0 -> r0 <= r1 ->
  rz_int h r0 r1 (fun r z => ((1 / 120) * r ^ 0 * z ^ 5 + (-1 / 24) * r ^ 2 * z ^ 3 + (1 / 64) * r ^ 4 * z ^ 1) / dd r z ^ 11) (rzB_50 h r1 - rzB_50 h r0).
Proof.
  intros Hh H0 H1. apply (rz_core h r0 r1 _ (fun r z => - ((1 / 24) * r ^ 0 * z ^ 4 + (-1 / 8) * r ^ 2 * z ^ 2 + (1 / 64) * r ^ 4 * z ^ 0) / ((dd r z) ^ 9 * 25))
    (fun r => r * (- ((1 / 24) * r ^ 0 * h ^ 4 + (-1 / 8) * r ^ 2 * h ^ 2 + (1 / 64) * r ^ 4 * h ^ 0) / ((dd r h) ^ 9 * 25) - (- ((1 / 24) * r ^ 0 * 0 ^ 4 + (-1 / 8) * r ^ 2 * 0 ^ 2 + (1 / 64) * r ^ 4 * 0 ^ 0) / (r ^ 9 * 25))))
    (rzB_50 h)); try assumption; clear r0 r1 H0 H1; unfold rzB_50.
  - intros r z Hr. assert (D := dd_dz r z Hr). kz r z D.
  - intros r z Hr. assert (D := dd_dz r z Hr). kz r z D.
  - intros r Hr. cbv beta. rewrite dd_0 by lra. rewrite ?Rplus_0_l. reflexivity.
  - intros r Hr. assert (D := dd_dr h r ltac:(lra)). kz r h D.
  - intros r Hr. assert (D := dd_dr h r ltac:(lra)). kz r h D.
Qed.

Lemma sol_51 r z : solid 5 1 r 0 z = RtoC ((-1 / 48) * r ^ 1 * z ^ 4 + (1 / 32) * r ^ 3 * z ^ 2 + (-1 / 384) * r ^ 5 * z ^ 0).
Proof. sol_lm. Qed.
Definition rzB_51 (h r : R) : R := (1 / 17280) * (r ^ 3 * (20 * h ^ 4 + 7 * h ^ 2 * r ^ 2 + 2 * r ^ 4) / (dd r h) ^ 7 / h ^ 3).
Lemma rz_51 h r0 r1 : 0 < h -> 0 < r0 -> r0 <= r1 ->
  rz_int h r0 r1 (fun r z => ((-1 / 48) * r ^ 1 * z ^ 4 + (1 / 32) * r ^ 3 * z ^ 2 + (-1 / 384) * r ^ 5 * z ^ 0) / dd r z ^ 11) (rzB_51 h r1 - rzB_51 h r0).
Proof.
  intros Hh H0 H1. apply (rz_core h r0 r1 _ (fun r z => - ((-1 / 12) * r ^ 1 * z ^ 3 + (1 / 16) * r ^ 3 * z ^ 1) / ((dd r z) ^ 9 * 24))
    (fun r => r * (- ((-1 / 12) * r ^ 1 * h ^ 3 + (1 / 16) * r ^ 3 * h ^ 1) / ((dd r h) ^ 9 * 24) - (- ((-1 / 12) * r ^ 1 * 0 ^ 3 + (1 / 16) * r ^ 3 * 0 ^ 1) / (r ^ 9 * 24))))
    (rzB_51 h)); try assumption; clear r0 r1 H0 H1; unfold rzB_51.
  - intros r z Hr. assert (D := dd_dz r z Hr). kz r z D.
  - intros r z Hr. assert (D := dd_dz r z Hr). kz r z D.
  - intros r Hr. cbv beta. rewrite dd_0 by lra. rewrite ?Rplus_0_l. reflexivity.
  - intros r Hr. assert (D := dd_dr h r ltac:(lra)). kz r h D.
  - intros r Hr. assert (D := dd_dr h r ltac:(lra)). kz r h D.
Qed.

Lemma sol_52 r z : solid 5 2 r 0 z = RtoC ((1 / 48) * r ^ 2 * z ^ 3 + (-1 / 96) * r ^ 4 * z ^ 1).
Proof. sol_lm. Qed.
Definition rzB_52 (h r : R) : R := (1 / 30240) * (5 / r ^ 3 + (4 * h ^ 4 + 14 * h ^ 2 * r ^ 2 - 5 * r ^ 4) / (dd r h) ^ 7).
Lemma rz_52 h r0 r1 : 0 < h -> 0 < r0 -> r0 <= r1 ->
  rz_int h r0 r1 (fun r z => ((1 / 48) * r ^ 2 * z ^ 3 + (-1 / 96) * r ^ 4 * z ^ 1) / dd r z ^ 11) (rzB_52 h r1 - rzB_52 h r0).
Proof.
  intros Hh H0 H1. apply (rz_core h r0 r1 _ (fun r z => - ((1 / 16) * r ^ 2 * z ^ 2 + (-1 / 96) * r ^ 4 * z ^ 0) / ((dd r z) ^ 9 * 21))
    (fun r => r * (- ((1 / 16) * r ^ 2 * h ^ 2 + (-1 / 96) * r ^ 4 * h ^ 0) / ((dd r h) ^ 9 * 21) - (- ((1 / 16) * r ^ 2 * 0 ^ 2 + (-1 / 96) * r ^ 4 * 0 ^ 0) / (r ^ 9 * 21))))
    (rzB_52 h)); try assumption; clear r0 r1 H0 H1; unfold rzB_52.
  - intros r z Hr. assert (D := dd_dz r z Hr). kz r z D.
  - intros r z Hr. assert (D := dd_dz r z Hr). kz r z D.
  - intros r Hr. cbv beta. rewrite dd_0 by lra. rewrite ?Rplus_0_l. reflexivity.
  - intros r Hr. assert (D := dd_dr h r ltac:(lra)). kz r h D.
  - intros r Hr. assert (D := dd_dr h r ltac:(lra)). kz r h D.
Qed.

Lemma sol_53 r z : solid 5 3 r 0 z = RtoC ((-1 / 96) * r ^ 3 * z ^ 2 + (1 / 768) * r ^ 5 * z ^ 0).
Proof. sol_lm. Qed.
Definition rzB_53 (h r : R) : R := (1 / 26880) * (r ^ 5 * (7 * h ^ 2 + 2 * r ^ 2) / (dd r h) ^ 7 / h ^ 3).
Lemma rz_53 h r0 r1 : 0 < h -> 0 < r0 -> r0 <= r1 ->
  rz_int h r0 r1 (fun r z => ((-1 / 96) * r ^ 3 * z ^ 2 + (1 / 768) * r ^ 5 * z ^ 0) / dd r z ^ 11) (rzB_53 h r1 - rzB_53 h r0).
Proof.
  intros Hh H0 H1. apply (rz_core h r0 r1 _ (fun r z => - ((-1 / 48) * r ^ 3 * z ^ 1) / ((dd r z) ^ 9 * 16))
    (fun r => r * (- ((-1 / 48) * r ^ 3 * h ^ 1) / ((dd r h) ^ 9 * 16) - (- ((-1 / 48) * r ^ 3 * 0 ^ 1) / (r ^ 9 * 16))))
    (rzB_53 h)); try assumption; clear r0 r1 H0 H1; unfold rzB_53.
  - intros r z Hr. assert (D := dd_dz r z Hr). kz r z D.
  - intros r z Hr. assert (D := dd_dz r z Hr). kz r z D.
  - intros r Hr. cbv beta. rewrite dd_0 by lra. rewrite ?Rplus_0_l. reflexivity.
  - intros r Hr. assert (D := dd_dr h r ltac:(lra)). kz r h D.
  - intros r Hr. assert (D := dd_dr h r ltac:(lra)). kz r h D.
Qed.

Lemma sol_54 r z : solid 5 4 r 0 z = RtoC ((1 / 384) * r ^ 4 * z ^ 1).
Proof. sol_lm. Qed.
Definition rzB_54 (h r : R) : R := (1 / 362880) * ((8 * h ^ 4 + 28 * h ^ 2 * r ^ 2 + 35 * r ^ 4) / (dd r h) ^ 7 - 35 / r ^ 3).
Lemma rz_54 h r0 r1 : 0 < h -> 0 < r0 -> r0 <= r1 ->
  rz_int h r0 r1 (fun r z => ((1 / 384) * r ^ 4 * z ^ 1) / dd r z ^ 11) (rzB_54 h r1 - rzB_54 h r0).
Proof.
  intros Hh H0 H1. apply (rz_core h r0 r1 _ (fun r z => - ((1 / 384) * r ^ 4 * z ^ 0) / ((dd r z) ^ 9 * 9))
    (fun r => r * (- ((1 / 384) * r ^ 4 * h ^ 0) / ((dd r h) ^ 9 * 9) - (- ((1 / 384) * r ^ 4 * 0 ^ 0) / (r ^ 9 * 9))))
    (rzB_54 h)); try assumption; clear r0 r1 H0 H1; unfold rzB_54.
  - intros r z Hr. assert (D := dd_dz r z Hr). kz r z D.
  - intros r z Hr. assert (D := dd_dz r z Hr). kz r z D.
  - intros r Hr. cbv beta. rewrite dd_0 by lra. rewrite ?Rplus_0_l. reflexivity.
  - intros r Hr. assert (D := dd_dr h r ltac:(lra)). kz r h D.
  - intros r Hr. assert (D := dd_dr h r ltac:(lra)). kz r h D.
Qed.

Lemma sol_55 r z : solid 5 5 r 0 z = RtoC ((-1 / 3840) * r ^ 5 * z ^ 0).
Proof. sol_lm. Qed.
Definition rzB_55 (h r : R) : R := (1 / 3628800) * ((128 * h ^ 10 + 448 * h ^ 8 * r ^ 2 + 560 * h ^ 6 * r ^ 4 + 280 * h ^ 4 * r ^ 6 + 35 * h ^ 2 * r ^ 8 + 10 * r ^ 10) / (r ^ 3 * (dd r h) ^ 7) / h ^ 3).
Lemma rz_55 h r0 r1 : 0 < h -> 0 < r0 -> r0 <= r1 ->
  rz_int h r0 r1 (fun r z => ((-1 / 3840) * r ^ 5 * z ^ 0) / dd r z ^ 11) (rzB_55 h r1 - rzB_55 h r0).
Proof.
  intros Hh H0 H1. apply (rz_core h r0 r1 _ (fun r z => (-1 / 3840) / r ^ 5 * ((1) * (z / (dd r z)) ^ 1 + (-4 / 3) * (z / (dd r z)) ^ 3 + (6 / 5) * (z / (dd r z)) ^ 5 + (-4 / 7) * (z / (dd r z)) ^ 7 + (1 / 9) * (z / (dd r z)) ^ 9))
    (fun r => r * ((-1 / 3840) / r ^ 5 * ((1) * (h / (dd r h)) ^ 1 + (-4 / 3) * (h / (dd r h)) ^ 3 + (6 / 5) * (h / (dd r h)) ^ 5 + (-4 / 7) * (h / (dd r h)) ^ 7 + (1 / 9) * (h / (dd r h)) ^ 9) - ((-1 / 3840) / r ^ 5 * ((1) * (0 / r) ^ 1 + (-4 / 3) * (0 / r) ^ 3 + (6 / 5) * (0 / r) ^ 5 + (-4 / 7) * (0 / r) ^ 7 + (1 / 9) * (0 / r) ^ 9))))
    (rzB_55 h)); try assumption; clear r0 r1 H0 H1; unfold rzB_55.
  - intros r z Hr. assert (D := dd_dz r z Hr). kz r z D.
  - intros r z Hr. assert (D := dd_dz r z Hr). kz r z D.
  - intros r Hr. cbv beta. rewrite dd_0 by lra. rewrite ?Rplus_0_l. reflexivity.
  - intros r Hr. assert (D := dd_dr h r ltac:(lra)). kz r h D.
  - intros r Hr. assert (D := dd_dr h r ltac:(lra)). kz r h D.
Qed.
