(* Tables for degrees up to 5 (generated): factorials, powers, square roots, the normalisation
   constants of the solid harmonics and the solid harmonics as combinations of monomial moments.
   Proof device, no model content. *)
From Verif Require Export QlmProofs7 QlmACH.
From Verif Require Import ClebschGordanProofs TranslationsProofs.
From Verif Require Import Cplx.
Open Scope C_scope.

Lemma zf_S n : (0 <= n)%Z -> zfact (n + 1) = (IZR (n + 1) * zfact n)%R.
Proof. intros. unfold zfact. replace (Z.to_nat (n + 1)) with (S (Z.to_nat n)) by lia. rewrite fact_simpl, mult_INR. f_equal. rewrite INR_IZR_INZ. f_equal. lia. Qed.
Lemma zf0 : zfact 0 = 1%R. Proof. reflexivity. Qed.
Lemma zf1 : zfact 1 = 1%R. Proof. change 1%Z with (0 + 1)%Z. rewrite zf_S, zf0 by lia. change (0 + 1)%Z with 1%Z. ring. Qed.
Lemma zf2 : zfact 2 = 2%R. Proof. change 2%Z with (1 + 1)%Z. rewrite zf_S, zf1 by lia. change (1 + 1)%Z with 2%Z. ring. Qed.
Lemma zf3 : zfact 3 = 6%R. Proof. change 3%Z with (2 + 1)%Z. rewrite zf_S, zf2 by lia. change (2 + 1)%Z with 3%Z. ring. Qed.
Lemma zf4 : zfact 4 = 24%R. Proof. change 4%Z with (3 + 1)%Z. rewrite zf_S, zf3 by lia. change (3 + 1)%Z with 4%Z. ring. Qed.
Lemma zf5 : zfact 5 = 120%R. Proof. change 5%Z with (4 + 1)%Z. rewrite zf_S, zf4 by lia. change (4 + 1)%Z with 5%Z. ring. Qed.
Lemma zf6 : zfact 6 = 720%R. Proof. change 6%Z with (5 + 1)%Z. rewrite zf_S, zf5 by lia. change (5 + 1)%Z with 6%Z. ring. Qed.
Lemma zf7 : zfact 7 = 5040%R. Proof. change 7%Z with (6 + 1)%Z. rewrite zf_S, zf6 by lia. change (6 + 1)%Z with 7%Z. ring. Qed.
Lemma zf8 : zfact 8 = 40320%R. Proof. change 8%Z with (7 + 1)%Z. rewrite zf_S, zf7 by lia. change (7 + 1)%Z with 8%Z. ring. Qed.
Lemma zf9 : zfact 9 = 362880%R. Proof. change 9%Z with (8 + 1)%Z. rewrite zf_S, zf8 by lia. change (8 + 1)%Z with 9%Z. ring. Qed.
Lemma zf10 : zfact 10 = 3628800%R. Proof. change 10%Z with (9 + 1)%Z. rewrite zf_S, zf9 by lia. change (9 + 1)%Z with 10%Z. ring. Qed.
Lemma zf11 : zfact 11 = 39916800%R. Proof. change 11%Z with (10 + 1)%Z. rewrite zf_S, zf10 by lia. change (10 + 1)%Z with 11%Z. ring. Qed.
Lemma zf12 : zfact 12 = 479001600%R. Proof. change 12%Z with (11 + 1)%Z. rewrite zf_S, zf11 by lia. change (11 + 1)%Z with 12%Z. ring. Qed.
Lemma pwl0 x : pw x 0 = (x ^ 0)%R. Proof. now rewrite pw_nonneg by lia. Qed.
Lemma pwl1 x : pw x 1 = (x ^ 1)%R. Proof. now rewrite pw_nonneg by lia. Qed.
Lemma pwl2 x : pw x 2 = (x ^ 2)%R. Proof. now rewrite pw_nonneg by lia. Qed.
Lemma pwl3 x : pw x 3 = (x ^ 3)%R. Proof. now rewrite pw_nonneg by lia. Qed.
Lemma pwl4 x : pw x 4 = (x ^ 4)%R. Proof. now rewrite pw_nonneg by lia. Qed.
Lemma pwl5 x : pw x 5 = (x ^ 5)%R. Proof. now rewrite pw_nonneg by lia. Qed.
Lemma pwl6 x : pw x 6 = (x ^ 6)%R. Proof. now rewrite pw_nonneg by lia. Qed.
Lemma pwl7 x : pw x 7 = (x ^ 7)%R. Proof. now rewrite pw_nonneg by lia. Qed.
Lemma pwl8 x : pw x 8 = (x ^ 8)%R. Proof. now rewrite pw_nonneg by lia. Qed.
Lemma pwl9 x : pw x 9 = (x ^ 9)%R. Proof. now rewrite pw_nonneg by lia. Qed.
Lemma pwl10 x : pw x 10 = (x ^ 10)%R. Proof. now rewrite pw_nonneg by lia. Qed.
Lemma pwl11 x : pw x 11 = (x ^ 11)%R. Proof. now rewrite pw_nonneg by lia. Qed.
Lemma pwl12 x : pw x 12 = (x ^ 12)%R. Proof. now rewrite pw_nonneg by lia. Qed.
Lemma pwl13 x : pw x 13 = (x ^ 13)%R. Proof. now rewrite pw_nonneg by lia. Qed.
Lemma pwl14 x : pw x 14 = (x ^ 14)%R. Proof. now rewrite pw_nonneg by lia. Qed.
Lemma s2p : (0 < sqrt 2)%R. Proof. apply sqrt_lt_R0. lra. Qed.
Lemma s2s : (sqrt 2 * sqrt 2 = 2)%R. Proof. apply sqrt_sqrt. lra. Qed.
Lemma s2n : sqrt 2 <> 0%R. Proof. apply Rgt_not_eq, s2p. Qed.
Lemma s3p : (0 < sqrt 3)%R. Proof. apply sqrt_lt_R0. lra. Qed.
Lemma s3s : (sqrt 3 * sqrt 3 = 3)%R. Proof. apply sqrt_sqrt. lra. Qed.
Lemma s3n : sqrt 3 <> 0%R. Proof. apply Rgt_not_eq, s3p. Qed.
Lemma s5p : (0 < sqrt 5)%R. Proof. apply sqrt_lt_R0. lra. Qed.
Lemma s5s : (sqrt 5 * sqrt 5 = 5)%R. Proof. apply sqrt_sqrt. lra. Qed.
Lemma s5n : sqrt 5 <> 0%R. Proof. apply Rgt_not_eq, s5p. Qed.
Lemma s7p : (0 < sqrt 7)%R. Proof. apply sqrt_lt_R0. lra. Qed.
Lemma s7s : (sqrt 7 * sqrt 7 = 7)%R. Proof. apply sqrt_sqrt. lra. Qed.
Lemma s7n : sqrt 7 <> 0%R. Proof. apply Rgt_not_eq, s7p. Qed.
Lemma s11p : (0 < sqrt 11)%R. Proof. apply sqrt_lt_R0. lra. Qed.
Lemma s11s : (sqrt 11 * sqrt 11 = 11)%R. Proof. apply sqrt_sqrt. lra. Qed.
Lemma s11n : sqrt 11 <> 0%R. Proof. apply Rgt_not_eq, s11p. Qed.
Lemma sPp : (0 < sqrt PI)%R. Proof. apply sqrt_lt_R0, PI_RGT_0. Qed.
Lemma sPs : (sqrt PI * sqrt PI = PI)%R. Proof. apply sqrt_sqrt. left. apply PI_RGT_0. Qed.
Lemma sPn : sqrt PI <> 0%R. Proof. apply Rgt_not_eq, sPp. Qed.
Lemma sq_6 : sqrt 6 = (sqrt 2 * sqrt 3)%R. Proof. replace 6%R with (2 * (3))%R by ring. rewrite !sqrt_mult_alt by lra. ring. Qed.
Lemma sq_10 : sqrt 10 = (sqrt 2 * sqrt 5)%R. Proof. replace 10%R with (2 * (5))%R by ring. rewrite !sqrt_mult_alt by lra. ring. Qed.
Lemma sq_14 : sqrt 14 = (sqrt 2 * sqrt 7)%R. Proof. replace 14%R with (2 * (7))%R by ring. rewrite !sqrt_mult_alt by lra. ring. Qed.
Lemma sq_15 : sqrt 15 = (sqrt 3 * sqrt 5)%R. Proof. replace 15%R with (3 * (5))%R by ring. rewrite !sqrt_mult_alt by lra. ring. Qed.
Lemma sq_21 : sqrt 21 = (sqrt 3 * sqrt 7)%R. Proof. replace 21%R with (3 * (7))%R by ring. rewrite !sqrt_mult_alt by lra. ring. Qed.
Lemma sq_22 : sqrt 22 = (sqrt 2 * sqrt 11)%R. Proof. replace 22%R with (2 * (11))%R by ring. rewrite !sqrt_mult_alt by lra. ring. Qed.
Lemma sq_30 : sqrt 30 = (sqrt 2 * sqrt 3 * sqrt 5)%R. Proof. replace 30%R with (2 * (3 * (5)))%R by ring. rewrite !sqrt_mult_alt by lra. ring. Qed.
Lemma sq_33 : sqrt 33 = (sqrt 3 * sqrt 11)%R. Proof. replace 33%R with (3 * (11))%R by ring. rewrite !sqrt_mult_alt by lra. ring. Qed.
Lemma sq_35 : sqrt 35 = (sqrt 5 * sqrt 7)%R. Proof. replace 35%R with (5 * (7))%R by ring. rewrite !sqrt_mult_alt by lra. ring. Qed.
Lemma sq_42 : sqrt 42 = (sqrt 2 * sqrt 3 * sqrt 7)%R. Proof. replace 42%R with (2 * (3 * (7)))%R by ring. rewrite !sqrt_mult_alt by lra. ring. Qed.
Lemma sq_55 : sqrt 55 = (sqrt 5 * sqrt 11)%R. Proof. replace 55%R with (5 * (11))%R by ring. rewrite !sqrt_mult_alt by lra. ring. Qed.
Lemma sq_66 : sqrt 66 = (sqrt 2 * sqrt 3 * sqrt 11)%R. Proof. replace 66%R with (2 * (3 * (11)))%R by ring. rewrite !sqrt_mult_alt by lra. ring. Qed.
Lemma sq_70 : sqrt 70 = (sqrt 2 * sqrt 5 * sqrt 7)%R. Proof. replace 70%R with (2 * (5 * (7)))%R by ring. rewrite !sqrt_mult_alt by lra. ring. Qed.
Lemma sq_77 : sqrt 77 = (sqrt 7 * sqrt 11)%R. Proof. replace 77%R with (7 * (11))%R by ring. rewrite !sqrt_mult_alt by lra. ring. Qed.
Lemma sq_105 : sqrt 105 = (sqrt 3 * sqrt 5 * sqrt 7)%R. Proof. replace 105%R with (3 * (5 * (7)))%R by ring. rewrite !sqrt_mult_alt by lra. ring. Qed.
Lemma sq_110 : sqrt 110 = (sqrt 2 * sqrt 5 * sqrt 11)%R. Proof. replace 110%R with (2 * (5 * (11)))%R by ring. rewrite !sqrt_mult_alt by lra. ring. Qed.
Lemma sq_154 : sqrt 154 = (sqrt 2 * sqrt 7 * sqrt 11)%R. Proof. replace 154%R with (2 * (7 * (11)))%R by ring. rewrite !sqrt_mult_alt by lra. ring. Qed.
Lemma sq_165 : sqrt 165 = (sqrt 3 * sqrt 5 * sqrt 11)%R. Proof. replace 165%R with (3 * (5 * (11)))%R by ring. rewrite !sqrt_mult_alt by lra. ring. Qed.
Lemma sq_210 : sqrt 210 = (sqrt 2 * sqrt 3 * sqrt 5 * sqrt 7)%R. Proof. replace 210%R with (2 * (3 * (5 * (7))))%R by ring. rewrite !sqrt_mult_alt by lra. ring. Qed.
Lemma sq_231 : sqrt 231 = (sqrt 3 * sqrt 7 * sqrt 11)%R. Proof. replace 231%R with (3 * (7 * (11)))%R by ring. rewrite !sqrt_mult_alt by lra. ring. Qed.
Lemma sq_330 : sqrt 330 = (sqrt 2 * sqrt 3 * sqrt 5 * sqrt 11)%R. Proof. replace 330%R with (2 * (3 * (5 * (11))))%R by ring. rewrite !sqrt_mult_alt by lra. ring. Qed.
Lemma sq_385 : sqrt 385 = (sqrt 5 * sqrt 7 * sqrt 11)%R. Proof. replace 385%R with (5 * (7 * (11)))%R by ring. rewrite !sqrt_mult_alt by lra. ring. Qed.
Lemma sq_462 : sqrt 462 = (sqrt 2 * sqrt 3 * sqrt 7 * sqrt 11)%R. Proof. replace 462%R with (2 * (3 * (7 * (11))))%R by ring. rewrite !sqrt_mult_alt by lra. ring. Qed.
Lemma sq_770 : sqrt 770 = (sqrt 2 * sqrt 5 * sqrt 7 * sqrt 11)%R. Proof. replace 770%R with (2 * (5 * (7 * (11))))%R by ring. rewrite !sqrt_mult_alt by lra. ring. Qed.
Lemma sq_1155 : sqrt 1155 = (sqrt 3 * sqrt 5 * sqrt 7 * sqrt 11)%R. Proof. replace 1155%R with (3 * (5 * (7 * (11))))%R by ring. rewrite !sqrt_mult_alt by lra. ring. Qed.
Lemma sq_2310 : sqrt 2310 = (sqrt 2 * sqrt 3 * sqrt 5 * sqrt 7 * sqrt 11)%R. Proof. replace 2310%R with (2 * (3 * (5 * (7 * (11)))))%R by ring. rewrite !sqrt_mult_alt by lra. ring. Qed.
Ltac sqint := rewrite ?sq_6, ?sq_10, ?sq_14, ?sq_15, ?sq_21, ?sq_22, ?sq_30, ?sq_33, ?sq_35, ?sq_42, ?sq_55, ?sq_66, ?sq_70, ?sq_77, ?sq_105, ?sq_110, ?sq_154, ?sq_165, ?sq_210, ?sq_231, ?sq_330, ?sq_385, ?sq_462, ?sq_770, ?sq_1155, ?sq_2310.
Lemma sqd a b : (0 < b)%R -> sqrt (a / b) = (sqrt a / sqrt b)%R. Proof. apply sqrt_div_alt. Qed.
Lemma sqm a b : (0 <= a)%R -> sqrt (a * b) = (sqrt a * sqrt b)%R. Proof. apply sqrt_mult_alt. Qed.
Lemma sq_4 : sqrt 4 = 2%R. Proof. replace 4%R with (2 * 2)%R by ring. apply sqrt_square. lra. Qed.
Lemma sq_1 : sqrt 1 = 1%R. Proof. apply sqrt_1. Qed.
Lemma pos_mPI a : (0 < a)%R -> (0 < a * PI)%R. Proof. intros. apply Rmult_lt_0_compat; [assumption|apply PI_RGT_0]. Qed.
(* splits every square root of a constant into square roots of primes and of PI *)
Ltac sqsplit :=
  repeat match goal with
  | |- context [sqrt (?a / ?b)] => rewrite (sqd a b) by (first [lra | apply PI_RGT_0 | (apply pos_mPI; lra)])
  | |- context [sqrt (?a * PI)] => rewrite (sqm a PI) by lra
  end; rewrite ?sq_1, ?sq_4; sqint.

(* nrm l m = K sqrt(n) / sqrt(PI) *)
Lemma nrm_00 : nrm 0 0 = (1 / 2 * (1) / sqrt PI)%R.
Proof. unfold nrm. change (0 + 0)%Z with 0%Z. change (0 - 0)%Z with 0%Z. rewrite ?zf0, ?zf0. replace ((2 * 0 + 1) * 1 * 1 / (4 * PI))%R with ((1 / 2) ^ 2 * (1 / PI))%R by (field; apply PI_neq0).
  rewrite sqm by (apply pow2_ge_0). rewrite sqrt_pow2 by lra. sqsplit. field. apply sPn. Qed.
Lemma nrm_10 : nrm 1 0 = (1 / 2 * (sqrt 3) / sqrt PI)%R.
Proof. unfold nrm. change (1 + 0)%Z with 1%Z. change (1 - 0)%Z with 1%Z. rewrite ?zf1, ?zf1. replace ((2 * 1 + 1) * 1 * 1 / (4 * PI))%R with ((1 / 2) ^ 2 * (3 / PI))%R by (field; apply PI_neq0).
  rewrite sqm by (apply pow2_ge_0). rewrite sqrt_pow2 by lra. sqsplit. field. apply sPn. Qed.
Lemma nrm_11 : nrm 1 1 = (1 / 2 * (sqrt 2 * sqrt 3) / sqrt PI)%R.
Proof. unfold nrm. change (1 + 1)%Z with 2%Z. change (1 - 1)%Z with 0%Z. rewrite ?zf2, ?zf0. replace ((2 * 1 + 1) * 2 * 1 / (4 * PI))%R with ((1 / 2) ^ 2 * (6 / PI))%R by (field; apply PI_neq0).
  rewrite sqm by (apply pow2_ge_0). rewrite sqrt_pow2 by lra. sqsplit. field. apply sPn. Qed.
Lemma nrm_20 : nrm 2 0 = (1 * (sqrt 5) / sqrt PI)%R.
Proof. unfold nrm. change (2 + 0)%Z with 2%Z. change (2 - 0)%Z with 2%Z. rewrite ?zf2, ?zf2. replace ((2 * 2 + 1) * 2 * 2 / (4 * PI))%R with ((2 / 2) ^ 2 * (5 / PI))%R by (field; apply PI_neq0).
  rewrite sqm by (apply pow2_ge_0). rewrite sqrt_pow2 by lra. sqsplit. field. apply sPn. Qed.
Lemma nrm_21 : nrm 2 1 = (1 / 2 * (sqrt 2 * sqrt 3 * sqrt 5) / sqrt PI)%R.
Proof. unfold nrm. change (2 + 1)%Z with 3%Z. change (2 - 1)%Z with 1%Z. rewrite ?zf3, ?zf1. replace ((2 * 2 + 1) * 6 * 1 / (4 * PI))%R with ((1 / 2) ^ 2 * (30 / PI))%R by (field; apply PI_neq0).
  rewrite sqm by (apply pow2_ge_0). rewrite sqrt_pow2 by lra. sqsplit. field. apply sPn. Qed.
Lemma nrm_22 : nrm 2 2 = (1 * (sqrt 2 * sqrt 3 * sqrt 5) / sqrt PI)%R.
Proof. unfold nrm. change (2 + 2)%Z with 4%Z. change (2 - 2)%Z with 0%Z. rewrite ?zf4, ?zf0. replace ((2 * 2 + 1) * 24 * 1 / (4 * PI))%R with ((2 / 2) ^ 2 * (30 / PI))%R by (field; apply PI_neq0).
  rewrite sqm by (apply pow2_ge_0). rewrite sqrt_pow2 by lra. sqsplit. field. apply sPn. Qed.
Lemma nrm_30 : nrm 3 0 = (3 * (sqrt 7) / sqrt PI)%R.
Proof. unfold nrm. change (3 + 0)%Z with 3%Z. change (3 - 0)%Z with 3%Z. rewrite ?zf3, ?zf3. replace ((2 * 3 + 1) * 6 * 6 / (4 * PI))%R with ((6 / 2) ^ 2 * (7 / PI))%R by (field; apply PI_neq0).
  rewrite sqm by (apply pow2_ge_0). rewrite sqrt_pow2 by lra. sqsplit. field. apply sPn. Qed.
Lemma nrm_31 : nrm 3 1 = (2 * (sqrt 3 * sqrt 7) / sqrt PI)%R.
Proof. unfold nrm. change (3 + 1)%Z with 4%Z. change (3 - 1)%Z with 2%Z. rewrite ?zf4, ?zf2. replace ((2 * 3 + 1) * 24 * 2 / (4 * PI))%R with ((4 / 2) ^ 2 * (21 / PI))%R by (field; apply PI_neq0).
  rewrite sqm by (apply pow2_ge_0). rewrite sqrt_pow2 by lra. sqsplit. field. apply sPn. Qed.
Lemma nrm_32 : nrm 3 2 = (1 * (sqrt 2 * sqrt 3 * sqrt 5 * sqrt 7) / sqrt PI)%R.
Proof. unfold nrm. change (3 + 2)%Z with 5%Z. change (3 - 2)%Z with 1%Z. rewrite ?zf5, ?zf1. replace ((2 * 3 + 1) * 120 * 1 / (4 * PI))%R with ((2 / 2) ^ 2 * (210 / PI))%R by (field; apply PI_neq0).
  rewrite sqm by (apply pow2_ge_0). rewrite sqrt_pow2 by lra. sqsplit. field. apply sPn. Qed.
Lemma nrm_33 : nrm 3 3 = (6 * (sqrt 5 * sqrt 7) / sqrt PI)%R.
Proof. unfold nrm. change (3 + 3)%Z with 6%Z. change (3 - 3)%Z with 0%Z. rewrite ?zf6, ?zf0. replace ((2 * 3 + 1) * 720 * 1 / (4 * PI))%R with ((12 / 2) ^ 2 * (35 / PI))%R by (field; apply PI_neq0).
  rewrite sqm by (apply pow2_ge_0). rewrite sqrt_pow2 by lra. sqsplit. field. apply sPn. Qed.
Lemma nrm_40 : nrm 4 0 = (36 * (1) / sqrt PI)%R.
Proof. unfold nrm. change (4 + 0)%Z with 4%Z. change (4 - 0)%Z with 4%Z. rewrite ?zf4, ?zf4. replace ((2 * 4 + 1) * 24 * 24 / (4 * PI))%R with ((72 / 2) ^ 2 * (1 / PI))%R by (field; apply PI_neq0).
  rewrite sqm by (apply pow2_ge_0). rewrite sqrt_pow2 by lra. sqsplit. field. apply sPn. Qed.
Lemma nrm_41 : nrm 4 1 = (18 * (sqrt 5) / sqrt PI)%R.
Proof. unfold nrm. change (4 + 1)%Z with 5%Z. change (4 - 1)%Z with 3%Z. rewrite ?zf5, ?zf3. replace ((2 * 4 + 1) * 120 * 6 / (4 * PI))%R with ((36 / 2) ^ 2 * (5 / PI))%R by (field; apply PI_neq0).
  rewrite sqm by (apply pow2_ge_0). rewrite sqrt_pow2 by lra. sqsplit. field. apply sPn. Qed.
Lemma nrm_42 : nrm 4 2 = (18 * (sqrt 2 * sqrt 5) / sqrt PI)%R.
Proof. unfold nrm. change (4 + 2)%Z with 6%Z. change (4 - 2)%Z with 2%Z. rewrite ?zf6, ?zf2. replace ((2 * 4 + 1) * 720 * 2 / (4 * PI))%R with ((36 / 2) ^ 2 * (10 / PI))%R by (field; apply PI_neq0).
  rewrite sqm by (apply pow2_ge_0). rewrite sqrt_pow2 by lra. sqsplit. field. apply sPn. Qed.
Lemma nrm_43 : nrm 4 3 = (18 * (sqrt 5 * sqrt 7) / sqrt PI)%R.
Proof. unfold nrm. change (4 + 3)%Z with 7%Z. change (4 - 3)%Z with 1%Z. rewrite ?zf7, ?zf1. replace ((2 * 4 + 1) * 5040 * 1 / (4 * PI))%R with ((36 / 2) ^ 2 * (35 / PI))%R by (field; apply PI_neq0).
  rewrite sqm by (apply pow2_ge_0). rewrite sqrt_pow2 by lra. sqsplit. field. apply sPn. Qed.
Lemma nrm_44 : nrm 4 4 = (36 * (sqrt 2 * sqrt 5 * sqrt 7) / sqrt PI)%R.
Proof. unfold nrm. change (4 + 4)%Z with 8%Z. change (4 - 4)%Z with 0%Z. rewrite ?zf8, ?zf0. replace ((2 * 4 + 1) * 40320 * 1 / (4 * PI))%R with ((72 / 2) ^ 2 * (70 / PI))%R by (field; apply PI_neq0).
  rewrite sqm by (apply pow2_ge_0). rewrite sqrt_pow2 by lra. sqsplit. field. apply sPn. Qed.
Lemma nrm_50 : nrm 5 0 = (60 * (sqrt 11) / sqrt PI)%R.
Proof. unfold nrm. change (5 + 0)%Z with 5%Z. change (5 - 0)%Z with 5%Z. rewrite ?zf5, ?zf5. replace ((2 * 5 + 1) * 120 * 120 / (4 * PI))%R with ((120 / 2) ^ 2 * (11 / PI))%R by (field; apply PI_neq0).
  rewrite sqm by (apply pow2_ge_0). rewrite sqrt_pow2 by lra. sqsplit. field. apply sPn. Qed.
Lemma nrm_51 : nrm 5 1 = (12 * (sqrt 2 * sqrt 3 * sqrt 5 * sqrt 11) / sqrt PI)%R.
Proof. unfold nrm. change (5 + 1)%Z with 6%Z. change (5 - 1)%Z with 4%Z. rewrite ?zf6, ?zf4. replace ((2 * 5 + 1) * 720 * 24 / (4 * PI))%R with ((24 / 2) ^ 2 * (330 / PI))%R by (field; apply PI_neq0).
  rewrite sqm by (apply pow2_ge_0). rewrite sqrt_pow2 by lra. sqsplit. field. apply sPn. Qed.
Lemma nrm_52 : nrm 5 2 = (6 * (sqrt 2 * sqrt 3 * sqrt 5 * sqrt 7 * sqrt 11) / sqrt PI)%R.
Proof. unfold nrm. change (5 + 2)%Z with 7%Z. change (5 - 2)%Z with 3%Z. rewrite ?zf7, ?zf3. replace ((2 * 5 + 1) * 5040 * 6 / (4 * PI))%R with ((12 / 2) ^ 2 * (2310 / PI))%R by (field; apply PI_neq0).
  rewrite sqm by (apply pow2_ge_0). rewrite sqrt_pow2 by lra. sqsplit. field. apply sPn. Qed.
Lemma nrm_53 : nrm 5 3 = (24 * (sqrt 5 * sqrt 7 * sqrt 11) / sqrt PI)%R.
Proof. unfold nrm. change (5 + 3)%Z with 8%Z. change (5 - 3)%Z with 2%Z. rewrite ?zf8, ?zf2. replace ((2 * 5 + 1) * 40320 * 2 / (4 * PI))%R with ((48 / 2) ^ 2 * (385 / PI))%R by (field; apply PI_neq0).
  rewrite sqm by (apply pow2_ge_0). rewrite sqrt_pow2 by lra. sqsplit. field. apply sPn. Qed.
Lemma nrm_54 : nrm 5 4 = (36 * (sqrt 2 * sqrt 5 * sqrt 7 * sqrt 11) / sqrt PI)%R.
Proof. unfold nrm. change (5 + 4)%Z with 9%Z. change (5 - 4)%Z with 1%Z. rewrite ?zf9, ?zf1. replace ((2 * 5 + 1) * 362880 * 1 / (4 * PI))%R with ((72 / 2) ^ 2 * (770 / PI))%R by (field; apply PI_neq0).
  rewrite sqm by (apply pow2_ge_0). rewrite sqrt_pow2 by lra. sqsplit. field. apply sPn. Qed.
Lemma nrm_55 : nrm 5 5 = (360 * (sqrt 7 * sqrt 11) / sqrt PI)%R.
Proof. unfold nrm. change (5 + 5)%Z with 10%Z. change (5 - 5)%Z with 0%Z. rewrite ?zf10, ?zf0. replace ((2 * 5 + 1) * 3628800 * 1 / (4 * PI))%R with ((720 / 2) ^ 2 * (77 / PI))%R by (field; apply PI_neq0).
  rewrite sqm by (apply pow2_ge_0). rewrite sqrt_pow2 by lra. sqsplit. field. apply sPn. Qed.

Ltac mono_tab := unfold mono_int, coef, zsum; cbv [Z.sub Z.add Z.opp Z.mul Z.div Z.div_eucl Z.pos_div_eucl Z.pos_sub Z.to_nat Z.of_nat Pos.mul Pos.add Pos.succ
    Pos.pred_double Z.double Z.succ_double Z.pred_double Z.leb Z.ltb Z.compare Pos.compare Pos.compare_cont Pos.to_nat Pos.iter_op Nat.add Init.Nat.add Pos.of_succ_nat nsum Z.geb Pos.add_carry];
  rewrite ?zf0, ?zf1, ?zf2, ?zf3, ?zf4, ?zf5, ?pwl0, ?pwl1, ?pwl2, ?pwl3, ?pwl4, ?pwl5;
  unfold sgnC; cbn [Z.even cpow]; apply C_eq;
  cbn [Cmult Cplus Ci RtoC fst snd Re Im]; field.
Lemma mi_00 mu : mono_int mu 0 0 = (mu 0%Z 0%Z 0%Z, 0)%R.
Proof. mono_tab. Qed.
Lemma mi_10 mu : mono_int mu 1 0 = (mu 0%Z 0%Z 1%Z, 0)%R.
Proof. mono_tab. Qed.
Lemma mi_11 mu : mono_int mu 1 1 = (- (1 / 2) * mu 1%Z 0%Z 0%Z, (1 / 2) * mu 0%Z 1%Z 0%Z)%R.
Proof. mono_tab. Qed.
Lemma mi_20 mu : mono_int mu 2 0 = (- (1 / 4) * mu 2%Z 0%Z 0%Z - (1 / 4) * mu 0%Z 2%Z 0%Z + mu 0%Z 0%Z 2%Z, 0)%R.
Proof. mono_tab. Qed.
Lemma mi_21 mu : mono_int mu 2 1 = (- (1 / 2) * mu 1%Z 0%Z 1%Z, (1 / 2) * mu 0%Z 1%Z 1%Z)%R.
Proof. mono_tab. Qed.
Lemma mi_22 mu : mono_int mu 2 2 = ((1 / 8) * mu 2%Z 0%Z 0%Z - (1 / 8) * mu 0%Z 2%Z 0%Z, - (1 / 4) * mu 1%Z 1%Z 0%Z)%R.
Proof. mono_tab. Qed.
Lemma mi_30 mu : mono_int mu 3 0 = (- (1 / 4) * mu 2%Z 0%Z 1%Z - (1 / 4) * mu 0%Z 2%Z 1%Z + mu 0%Z 0%Z 3%Z, 0)%R.
Proof. mono_tab. Qed.
Lemma mi_31 mu : mono_int mu 3 1 = ((1 / 16) * mu 3%Z 0%Z 0%Z + (1 / 16) * mu 1%Z 2%Z 0%Z - (1 / 2) * mu 1%Z 0%Z 2%Z, - (1 / 16) * mu 2%Z 1%Z 0%Z - (1 / 16) * mu 0%Z 3%Z 0%Z + (1 / 2) * mu 0%Z 1%Z 2%Z)%R.
Proof. mono_tab. Qed.
Lemma mi_32 mu : mono_int mu 3 2 = ((1 / 8) * mu 2%Z 0%Z 1%Z - (1 / 8) * mu 0%Z 2%Z 1%Z, - (1 / 4) * mu 1%Z 1%Z 1%Z)%R.
Proof. mono_tab. Qed.
Lemma mi_33 mu : mono_int mu 3 3 = (- (1 / 48) * mu 3%Z 0%Z 0%Z + (1 / 16) * mu 1%Z 2%Z 0%Z, (1 / 16) * mu 2%Z 1%Z 0%Z - (1 / 48) * mu 0%Z 3%Z 0%Z)%R.
Proof. mono_tab. Qed.
Lemma mi_40 mu : mono_int mu 4 0 = ((1 / 64) * mu 4%Z 0%Z 0%Z + (1 / 32) * mu 2%Z 2%Z 0%Z - (1 / 4) * mu 2%Z 0%Z 2%Z + (1 / 64) * mu 0%Z 4%Z 0%Z - (1 / 4) * mu 0%Z 2%Z 2%Z + mu 0%Z 0%Z 4%Z, 0)%R.
Proof. mono_tab. Qed.
Lemma mi_41 mu : mono_int mu 4 1 = ((1 / 16) * mu 3%Z 0%Z 1%Z + (1 / 16) * mu 1%Z 2%Z 1%Z - (1 / 2) * mu 1%Z 0%Z 3%Z, - (1 / 16) * mu 2%Z 1%Z 1%Z - (1 / 16) * mu 0%Z 3%Z 1%Z + (1 / 2) * mu 0%Z 1%Z 3%Z)%R.
Proof. mono_tab. Qed.
Lemma mi_42 mu : mono_int mu 4 2 = (- (1 / 96) * mu 4%Z 0%Z 0%Z + (1 / 8) * mu 2%Z 0%Z 2%Z + (1 / 96) * mu 0%Z 4%Z 0%Z - (1 / 8) * mu 0%Z 2%Z 2%Z, (1 / 48) * mu 3%Z 1%Z 0%Z + (1 / 48) * mu 1%Z 3%Z 0%Z - (1 / 4) * mu 1%Z 1%Z 2%Z)%R.
Proof. mono_tab. Qed.
Lemma mi_43 mu : mono_int mu 4 3 = (- (1 / 48) * mu 3%Z 0%Z 1%Z + (1 / 16) * mu 1%Z 2%Z 1%Z, (1 / 16) * mu 2%Z 1%Z 1%Z - (1 / 48) * mu 0%Z 3%Z 1%Z)%R.
Proof. mono_tab. Qed.
Lemma mi_44 mu : mono_int mu 4 4 = ((1 / 384) * mu 4%Z 0%Z 0%Z - (1 / 64) * mu 2%Z 2%Z 0%Z + (1 / 384) * mu 0%Z 4%Z 0%Z, - (1 / 96) * mu 3%Z 1%Z 0%Z + (1 / 96) * mu 1%Z 3%Z 0%Z)%R.
Proof. mono_tab. Qed.
Lemma mi_50 mu : mono_int mu 5 0 = ((1 / 64) * mu 4%Z 0%Z 1%Z + (1 / 32) * mu 2%Z 2%Z 1%Z - (1 / 4) * mu 2%Z 0%Z 3%Z + (1 / 64) * mu 0%Z 4%Z 1%Z - (1 / 4) * mu 0%Z 2%Z 3%Z + mu 0%Z 0%Z 5%Z, 0)%R.
Proof. mono_tab. Qed.
Lemma mi_51 mu : mono_int mu 5 1 = (- (1 / 384) * mu 5%Z 0%Z 0%Z - (1 / 192) * mu 3%Z 2%Z 0%Z + (1 / 16) * mu 3%Z 0%Z 2%Z - (1 / 384) * mu 1%Z 4%Z 0%Z + (1 / 16) * mu 1%Z 2%Z 2%Z - (1 / 2) * mu 1%Z 0%Z 4%Z, (1 / 384) * mu 4%Z 1%Z 0%Z + (1 / 192) * mu 2%Z 3%Z 0%Z - (1 / 16) * mu 2%Z 1%Z 2%Z + (1 / 384) * mu 0%Z 5%Z 0%Z - (1 / 16) * mu 0%Z 3%Z 2%Z + (1 / 2) * mu 0%Z 1%Z 4%Z)%R.
Proof. mono_tab. Qed.
Lemma mi_52 mu : mono_int mu 5 2 = (- (1 / 96) * mu 4%Z 0%Z 1%Z + (1 / 8) * mu 2%Z 0%Z 3%Z + (1 / 96) * mu 0%Z 4%Z 1%Z - (1 / 8) * mu 0%Z 2%Z 3%Z, (1 / 48) * mu 3%Z 1%Z 1%Z + (1 / 48) * mu 1%Z 3%Z 1%Z - (1 / 4) * mu 1%Z 1%Z 3%Z)%R.
Proof. mono_tab. Qed.
Lemma mi_53 mu : mono_int mu 5 3 = ((1 / 768) * mu 5%Z 0%Z 0%Z - (1 / 384) * mu 3%Z 2%Z 0%Z - (1 / 48) * mu 3%Z 0%Z 2%Z - (1 / 256) * mu 1%Z 4%Z 0%Z + (1 / 16) * mu 1%Z 2%Z 2%Z, - (1 / 256) * mu 4%Z 1%Z 0%Z - (1 / 384) * mu 2%Z 3%Z 0%Z + (1 / 16) * mu 2%Z 1%Z 2%Z + (1 / 768) * mu 0%Z 5%Z 0%Z - (1 / 48) * mu 0%Z 3%Z 2%Z)%R.
Proof. mono_tab. Qed.
Lemma mi_54 mu : mono_int mu 5 4 = ((1 / 384) * mu 4%Z 0%Z 1%Z - (1 / 64) * mu 2%Z 2%Z 1%Z + (1 / 384) * mu 0%Z 4%Z 1%Z, - (1 / 96) * mu 3%Z 1%Z 1%Z + (1 / 96) * mu 1%Z 3%Z 1%Z)%R.
Proof. mono_tab. Qed.
Lemma mi_55 mu : mono_int mu 5 5 = (- (1 / 3840) * mu 5%Z 0%Z 0%Z + (1 / 384) * mu 3%Z 2%Z 0%Z - (1 / 768) * mu 1%Z 4%Z 0%Z, (1 / 768) * mu 4%Z 1%Z 0%Z - (1 / 384) * mu 2%Z 3%Z 0%Z + (1 / 3840) * mu 0%Z 5%Z 0%Z)%R.
Proof. mono_tab. Qed.
