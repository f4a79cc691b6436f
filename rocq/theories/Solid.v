(* Solid harmonics versus spherical harmonics (scipy's sph_harm as specified in MathSpec). *)
From Verif Require Export Tri.
From Coq Require Import Psatz.
Open Scope C_scope.

(* phases *)
Definition wpow (w : C) (n : Z) : C :=   (* w^n for an invertible w *)
  if (n <? 0)%Z then cpow (/ w) (Z.to_nat (- n)) else cpow w (Z.to_nat n).
Lemma wpow_split (w : C) (a b : Z) : w <> 0 -> (0 <= b)%Z -> (0 <= a + b)%Z ->
  cpow w (Z.to_nat (a + b)) * cpow (/ w) (Z.to_nat b) = wpow w a.
Proof.
  intros Hw Hb Hab. unfold wpow. destruct (Z.ltb_spec a 0).
  - replace (Z.to_nat b) with (Z.to_nat (a + b) + Z.to_nat (- a))%nat by lia. rewrite cpow_add.
    transitivity (cpow (w * / w) (Z.to_nat (a + b)) * cpow (/ w) (Z.to_nat (- a))); [rewrite cpow_mul; ring|].
    rewrite Cinv_r by assumption. rewrite cpow_1. ring.
  - replace (Z.to_nat (a + b)) with (Z.to_nat a + Z.to_nat b)%nat by lia. rewrite cpow_add.
    transitivity (cpow w (Z.to_nat a) * cpow (w * / w) (Z.to_nat b)); [rewrite cpow_mul; ring|].
    rewrite Cinv_r by assumption. rewrite cpow_1. ring.
Qed.
Lemma tri_phase (w : C) l m A z B : w <> 0 -> tri l m (w * A) z (/ w * B) = wpow w m * tri l m A z B.
Proof.
  intros Hw. unfold tri. rewrite <- zsum_scal_l. apply zsum_ext. intros k Hk.
  destruct (Z_lt_le_dec (m + k) 0) as [H1|H1]; [rewrite !(dp_neg _ (m + k)) by lia; ring|].
  rewrite !dp_scal by lia. rewrite <- (wpow_split w m k) by (assumption || lia). ring.
Qed.
Lemma wpow_cexpi t n : wpow (cexpi t) n = cexpi (IZR n * t).
Proof.
  unfold wpow. destruct (Z.ltb_spec n 0).
  - assert (E : / cexpi t = cexpi (- t)).
    { assert (H1 := cexpi_opp_mul t). assert (H2 := cexpi_neq0 t).
      transitivity (cexpi (- t) * cexpi t / cexpi t); [rewrite H1; field; assumption|field; assumption]. }
    rewrite E, cexpi_pow. f_equal. rewrite INR_IZR_INZ. rewrite Z2Nat.id by lia. rewrite opp_IZR. ring.
  - rewrite cexpi_pow. f_equal. rewrite INR_IZR_INZ. now rewrite Z2Nat.id by lia.
Qed.

(* ---- Legendre functions ------------------------------------------------ *)
(* value of the trinomial on the unit circle x = s, y = 0, z = c *)
Definition triU (l m : Z) (s c : R) : C := tri l m (RtoC (- s / 2)) (RtoC c) (RtoC (s / 2)).
Lemma triU_rec l m s c : (s * s + c * c = 1)%R ->
  RtoC (IZR ((l + m) * (l - m))) * triU l m s c =
  RtoC (IZR (2 * l - 1) * c) * triU (l - 1) m s c - triU (l - 2) m s c.
Proof.
  intros H. unfold triU. rewrite tri_rec_l. rewrite RtoC_mult.
  replace (RtoC c * RtoC c - RtoC 4 * RtoC (- s / 2) * RtoC (s / 2)) with (RtoC 1); [ring|].
  rewrite <- !RtoC_mult, <- RtoC_minus. f_equal. rewrite <- H. field.
Qed.
Lemma zfact_nonneg_succ (n : nat) : zfact (Z.of_nat (S n)) = (INR (S n) * zfact (Z.of_nat n))%R.
Proof. unfold zfact. rewrite !Nat2Z.id. now rewrite fact_simpl, mult_INR. Qed.
Lemma Pmm_tri (m : nat) s c : (s * s + c * c = 1)%R -> (0 <= s)%R ->
  triU (Z.of_nat m) (Z.of_nat m) s c = RtoC (Pmm m c / zfact (2 * Z.of_nat m)).
Proof.
  intros H Hs. assert (Hq : sqrt (1 - c ^ 2) = s).
  { replace (1 - c ^ 2)%R with (s * s)%R by (rewrite <- H; ring). now apply sqrt_square. }
  unfold triU. rewrite tri_top by lia. induction m as [|m IH].
  - cbn [Pmm]. change (Z.of_nat 0) with 0%Z. rewrite dp_0. change (2 * 0)%Z with 0%Z. rewrite zfact_0. f_equal. field.
  - assert (Hd := dp_rec (RtoC (- s / 2)) (Z.of_nat (S m))).
    replace (Z.of_nat (S m) - 1)%Z with (Z.of_nat m) in Hd by lia. rewrite IH in Hd.
    rewrite <- RtoC_mult in Hd.
    assert (Hn : IZR (Z.of_nat (S m)) <> 0%R) by (apply not_0_IZR; lia).
    assert (E : dp (RtoC (- s / 2)) (Z.of_nat (S m)) = RtoC (- s / 2 * (Pmm m c / zfact (2 * Z.of_nat m)) / IZR (Z.of_nat (S m)))).
    { rewrite (RtoC_div _ (IZR (Z.of_nat (S m)))) by assumption. rewrite <- Hd. field. now apply RtoC_neq0. }
    rewrite E. f_equal. cbn [Pmm]. rewrite Hq.
    replace (2 * Z.of_nat (S m))%Z with (2 * Z.of_nat m + 1 + 1)%Z by lia.
    rewrite (zfact_succ (2 * Z.of_nat m + 1)), (zfact_succ (2 * Z.of_nat m)) by lia.
    replace (Z.of_nat (S m)) with (Z.of_nat m + 1)%Z in * by lia.
    rewrite !plus_IZR, mult_IZR in *. rewrite <- INR_IZR_INZ in *.
    assert (Hf := zfact_neq0 (2 * Z.of_nat m)). assert (Hp := pos_INR m).
    field. repeat split; assumption || (intros ?; lra).
Qed.
Lemma Plm_tri (m i : nat) s c : (s * s + c * c = 1)%R -> (0 <= s)%R ->
  triU (Z.of_nat (m + i)) (Z.of_nat m) s c = RtoC (fst (Plm_pair m i c) / zfact (Z.of_nat (m + i) + Z.of_nat m))
  /\ triU (Z.of_nat (m + i) - 1) (Z.of_nat m) s c = RtoC (snd (Plm_pair m i c) / zfact (Z.of_nat (m + i) + Z.of_nat m - 1)).
Proof.
  intros H Hs. induction i as [|i IH].
  - rewrite Nat.add_0_r. cbn [Plm_pair fst snd]. split.
    + rewrite Pmm_tri by assumption. do 3 f_equal. lia.
    + unfold triU. rewrite tri_zero by lia. f_equal. unfold Rdiv. ring.
  - destruct IH as [IH1 IH2]. cbn [Plm_pair fst snd]. split.
    + assert (E := triU_rec (Z.of_nat (m + S i)) (Z.of_nat m) s c H).
      replace (Z.of_nat (m + S i) - 1)%Z with (Z.of_nat (m + i)) in E by lia.
      replace (Z.of_nat (m + S i) - 2)%Z with (Z.of_nat (m + i) - 1)%Z in E by lia.
      rewrite IH1, IH2, <- RtoC_mult, <- RtoC_minus in E.
      assert (Hk : IZR ((Z.of_nat (m + S i) + Z.of_nat m) * (Z.of_nat (m + S i) - Z.of_nat m)) <> 0%R) by (apply not_0_IZR; nia).
      set (T := triU (Z.of_nat (m + S i)) (Z.of_nat m) s c) in *.
      assert (ET : T = RtoC (IZR ((Z.of_nat (m + S i) + Z.of_nat m) * (Z.of_nat (m + S i) - Z.of_nat m))) * T
        / RtoC (IZR ((Z.of_nat (m + S i) + Z.of_nat m) * (Z.of_nat (m + S i) - Z.of_nat m)))) by (field; now apply RtoC_neq0).
      rewrite ET, E, <- RtoC_div by assumption. f_equal. revert Hk.
      rewrite mult_IZR, minus_IZR, plus_IZR, !minus_IZR, !mult_IZR, <- !INR_IZR_INZ.
      rewrite !plus_INR, !S_INR.
      replace (Z.of_nat (m + S i) + Z.of_nat m)%Z with (Z.of_nat (m + i) + Z.of_nat m + 1)%Z by lia.
      rewrite (zfact_succ (Z.of_nat (m + i) + Z.of_nat m)) by lia. rewrite !plus_IZR, <- !INR_IZR_INZ, !plus_INR.
      intros Hk. assert (Hf := zfact_neq0 (Z.of_nat (m + i) + Z.of_nat m)).
      destruct (Z.eq_dec (Z.of_nat (m + i) + Z.of_nat m) 0) as [Z0|NZ].
      * assert (m = 0%nat) by lia. assert (i = 0%nat) by lia. subst. cbn [Plm_pair fst snd INR Nat.add Z.of_nat Z.add].
        change (zfact (0 - 1)) with 1%R. change (zfact 0) with 1%R. change (zfact 1) with 1%R. simpl. field.
      * rewrite (zfact_rec (Z.of_nat (m + i) + Z.of_nat m)) in * by lia.
        assert (Hg := zfact_neq0 (Z.of_nat (m + i) + Z.of_nat m - 1)).
        rewrite !plus_IZR, <- !INR_IZR_INZ, !plus_INR in *.
        assert (Hi := pos_INR i). assert (Hm := pos_INR m).
        assert (Hmi : (INR m + INR i + INR m <> 0)%R). { intros E0. apply NZ. 
          assert (IZR (Z.of_nat (m + i) + Z.of_nat m) = 0%R). { rewrite plus_IZR, <- !INR_IZR_INZ, plus_INR; lra. } now apply eq_IZR. }
        field. repeat split; assumption || (intros ?; lra).
    + replace (Z.of_nat (m + S i) - 1)%Z with (Z.of_nat (m + i)) by lia. rewrite IH1. do 3 f_equal. lia.
Qed.
Lemma triU_Plm l m s c : (s * s + c * c = 1)%R -> (0 <= s)%R -> (0 <= m <= l)%Z ->
  triU l m s c = RtoC (Plm l m c / zfact (l + m)).
Proof.
  intros H Hs Hm. unfold Plm. rewrite (proj2 (Z.ltb_ge m 0)), (proj2 (Z.ltb_ge l m)) by lia. cbn [orb].
  destruct (Plm_tri (Z.to_nat m) (Z.to_nat (l - m)) s c H Hs) as [E _].
  replace (Z.of_nat (Z.to_nat m + Z.to_nat (l - m))) with l in E by lia.
  rewrite Z2Nat.id in E by lia. exact E.
Qed.

(* the symmetry of the solid harmonics *)
Lemma solid_symm l m x y z : solid l (- m) x y z = sgnC m * Cconj (solid l m x y z).
Proof.
  unfold solid. rewrite tri_conj.
  set (P := (RtoC x - Ci * RtoC y) / RtoC 2). set (Q := (RtoC x + Ci * RtoC y) / RtoC 2).
  assert (EP : Cconj P = Q).
  { unfold P, Q. rewrite Cconj_div, Cconj_minus, Cconj_mult, !Cconj_RtoC, Cconj_Ci. field. }
  assert (EQ : Cconj Q = P) by (rewrite <- EP; apply Cconj_conj).
  replace (- (RtoC x - Ci * RtoC y) / RtoC 2) with (- P) by (unfold P; field).
  rewrite Cconj_opp, EP, EQ, Cconj_RtoC.
  rewrite <- (tri_flip l m). replace Q with (- - Q) at 1 by ring. 
  rewrite tri_opp_AB. reflexivity.
Qed.
Lemma solid_zero l m x y z : (l < Z.abs m)%Z -> solid l m x y z = 0.
Proof. intros. now apply tri_zero. Qed.
Lemma solid_00 x y z : solid 0 0 x y z = 1.
Proof. apply tri_0_0. Qed.
Lemma solid_origin l m : (l <> 0)%Z -> solid l m 0 0 0 = 0.
Proof.
  intros Hl. destruct (Z_lt_le_dec l 0); [now apply tri_neg|].
  unfold solid. transitivity (tri l m (RtoC 0 * 0) (RtoC 0 * 0) (RtoC 0 * 0)); [f_equal; field|].
  rewrite tri_scal by lia. rewrite cpow_0 by lia. ring.
Qed.
Lemma nrm_opp l m : nrm l (- m) = nrm l m.
Proof. unfold nrm. f_equal. replace (l + - m)%Z with (l - m)%Z by ring. replace (l - - m)%Z with (l + m)%Z by ring. unfold Rdiv. ring. Qed.
Lemma nrm_pos l m : (0 <= l)%Z -> (0 < nrm l m)%R.
Proof.
  intros H. apply sqrt_lt_R0. apply Rdiv_lt_0_compat.
  - repeat apply Rmult_lt_0_compat; try apply zfact_pos. apply IZR_le in H. lra.
  - assert (H1 := PI_RGT_0). lra.
Qed.
Lemma nrm_neq0 l m : (0 <= l)%Z -> nrm l m <> 0%R.
Proof. intros. apply Rgt_not_eq. now apply nrm_pos. Qed.

(* r^l conj(Y_lm(theta,phi)) is the normalised solid harmonic of the Cartesian point *)
Lemma sph_harm_solid l m r theta phi : (Z.abs m <= l)%Z -> (0 <= theta <= PI)%R ->
  RtoC (r ^ Z.to_nat l) * Cconj (sph_harm m l phi theta)
  = RtoC (nrm l m) * solid l m (r * sin theta * cos phi) (r * sin theta * sin phi) (r * cos theta).
Proof.
  intros Hm Ht.
  assert (Hs : (0 <= sin theta)%R) by (apply sin_ge_0; lra).
  assert (Hsc : (sin theta * sin theta + cos theta * cos theta = 1)%R) by (apply sin2_cos2).
  (* non-negative order *)
  assert (Pos : forall n, (0 <= n <= l)%Z ->
    RtoC (r ^ Z.to_nat l) * Cconj (sph_harm n l phi theta)
    = RtoC (nrm l n) * solid l n (r * sin theta * cos phi) (r * sin theta * sin phi) (r * cos theta)).
  { intros n Hn. unfold sph_harm. replace (n <? 0)%Z with false by (symmetry; apply Z.ltb_ge; lia).
    rewrite Z.abs_eq by lia. rewrite Cconj_mult, Cconj_RtoC, cexpi_conj.
    unfold solid.
    assert (E1 : - (RtoC (r * sin theta * cos phi) - Ci * RtoC (r * sin theta * sin phi)) / RtoC 2
            = cexpi (- phi) * (RtoC r * RtoC (- sin theta / 2))).
    { apply C_eq; unfold cexpi; simpl; rewrite cos_neg, sin_neg; field. }
    assert (E2 : (RtoC (r * sin theta * cos phi) + Ci * RtoC (r * sin theta * sin phi)) / RtoC 2
            = / cexpi (- phi) * (RtoC r * RtoC (sin theta / 2))).
    { assert (/ cexpi (- phi) = cexpi phi) as ->.
      { assert (H1 := cexpi_opp_mul phi). assert (H2 := cexpi_neq0 (- phi)).
        transitivity (cexpi (- phi) * cexpi phi / cexpi (- phi)); [rewrite H1; field; assumption|field; assumption]. }
      apply C_eq; unfold cexpi; simpl; field. }
    rewrite E1, E2, (RtoC_mult r (cos theta)), tri_phase by apply cexpi_neq0. rewrite tri_scal by lia.
    change (tri l n (RtoC (- sin theta / 2)) (RtoC (cos theta)) (RtoC (sin theta / 2))) with (triU l n (sin theta) (cos theta)).
    rewrite triU_Plm by (assumption || lia). rewrite wpow_cexpi, cpow_RtoC.
    replace (- (IZR n * phi))%R with (IZR n * - phi)%R by ring.
    transitivity (cexpi (IZR n * - phi) * (RtoC (r ^ Z.to_nat l) * RtoC (sqrt ((2 * IZR l + 1) / (4 * PI) * (zfact (l - n) / zfact (l + n))) * Plm l n (cos theta)))); [ring|].
    transitivity (cexpi (IZR n * - phi) * (RtoC (r ^ Z.to_nat l) * (RtoC (nrm l n) * RtoC (Plm l n (cos theta) / zfact (l + n))))); [|ring].
    f_equal. f_equal. rewrite <- RtoC_mult. f_equal. unfold nrm.
    assert (Hf := zfact_pos (l + n)). assert (Hf' := zfact_pos (l - n)).
    replace ((2 * IZR l + 1) * zfact (l + n) * zfact (l - n) / (4 * PI))%R
      with (((2 * IZR l + 1) / (4 * PI) * (zfact (l - n) / zfact (l + n))) * (zfact (l + n) * zfact (l + n)))%R
      by (field; split; [apply PI_neq0|lra]).
    rewrite (sqrt_mult_alt ((2 * IZR l + 1) / (4 * PI) * (zfact (l - n) / zfact (l + n)))).
    - rewrite sqrt_square by lra. field. lra.
    - assert (Hp := PI_RGT_0). assert (0 <= IZR l)%R by (apply IZR_le; lia).
      apply Rlt_le. apply Rmult_lt_0_compat; apply Rdiv_lt_0_compat; lra. }
  destruct (Z_lt_le_dec m 0) as [Hneg|Hpos]; [|apply Pos; lia].
  specialize (Pos (- m)%Z ltac:(lia)). rewrite nrm_opp in Pos.
  assert (E : sph_harm m l phi theta = sgnC m * Cconj (sph_harm (- m) l phi theta)).
  { unfold sph_harm. replace (m <? 0)%Z with true by (symmetry; apply Z.ltb_lt; lia).
    replace (- m <? 0)%Z with false by (symmetry; apply Z.ltb_ge; lia). rewrite Z.abs_opp, sgnC_abs. reflexivity. }
  rewrite E. rewrite <- (Z.opp_involutive m) at 4. rewrite solid_symm, sgnC_opp.
  rewrite Cconj_mult, sgnC_conj, Cconj_conj.
  transitivity (sgnC m * Cconj (RtoC (r ^ Z.to_nat l) * Cconj (sph_harm (- m) l phi theta))).
  - rewrite Cconj_mult, Cconj_conj, Cconj_RtoC. ring.
  - rewrite Pos. rewrite Cconj_mult, Cconj_RtoC. ring.
Qed.

(* ---- spherical coordinates of a Cartesian point ------------------------ *)
Lemma arctan2_spec x y : let rho := sqrt (x ^ 2 + y ^ 2) in
  (rho * cos (arctan2 y x) = x)%R /\ (rho * sin (arctan2 y x) = y)%R.
Proof.
  intros rho. assert (Hx := pow2_ge_0 x). assert (Hy := pow2_ge_0 y).
  assert (Hr : (rho * rho = x ^ 2 + y ^ 2)%R) by (apply sqrt_sqrt; lra).
  unfold arctan2. fold rho. destruct (Req_EM_T rho 0) as [E|E].
  - rewrite E in *. assert (x ^ 2 = 0)%R by lra. assert (y ^ 2 = 0)%R by lra.
    assert (x = 0)%R by nra. assert (y = 0)%R by nra. subst. split; ring.
  - assert (Hp : (0 < rho)%R) by (assert (0 <= rho)%R by apply sqrt_pos; lra).
    assert (B : (-1 <= x / rho <= 1)%R).
    { split; apply (Rmult_le_reg_r rho); try assumption; unfold Rdiv; rewrite Rmult_assoc, Rinv_l by assumption; nra. }
    assert (S : sqrt (1 - (x / rho)²) = (Rabs y / rho)%R).
    { replace (1 - (x / rho)²)%R with ((Rabs y / rho) * (Rabs y / rho))%R.
      - apply sqrt_square. apply Rmult_le_pos; [apply Rabs_pos|]. now apply Rlt_le, Rinv_0_lt_compat.
      - unfold Rsqr. replace (Rabs y / rho * (Rabs y / rho))%R with (Rsqr (Rabs y) / (rho * rho))%R by (unfold Rsqr; field; lra).
        rewrite <- Rsqr_abs. unfold Rsqr. 
        replace (x / rho * (x / rho))%R with (x ^ 2 / (rho * rho))%R by (field; lra). rewrite Hr. field. nra. }
    destruct (Rle_dec 0 y) as [Hy0|Hy0].
    + rewrite cos_acos, sin_acos, S by assumption. rewrite Rabs_right by lra. split; field; assumption.
    + rewrite cos_neg, sin_neg, cos_acos, sin_acos, S by assumption. rewrite Rabs_left by lra. split; field; assumption.
Qed.
Lemma cos_2kPI t k : cos (t + 2 * PI * IZR k) = cos t.
Proof. assert (H := cexpi_2PI_Z t k). unfold cexpi in H. now injection H. Qed.
Lemma sin_2kPI t k : sin (t + 2 * PI * IZR k) = sin t.
Proof. assert (H := cexpi_2PI_Z t k). unfold cexpi in H. now injection H. Qed.
Lemma pymod_2PI t : cos (pymod t (2 * PI)) = cos t /\ sin (pymod t (2 * PI)) = sin t.
Proof.
  unfold pymod. set (k := Int_part _).
  replace (t - 2 * PI * IZR k)%R with (t + 2 * PI * IZR (- k))%R by (rewrite opp_IZR; ring).
  now rewrite cos_2kPI, sin_2kPI.
Qed.
(* theta = arccos(z/r), phi = arctan2(y,x) % 2pi are spherical coordinates *)
Lemma spherical_of_cartesian x y z : let r := sqrt (x ^ 2 + y ^ 2 + z ^ 2) in r <> 0%R ->
  let theta := acos (z / r) in let phi := pymod (arctan2 y x) (2 * PI) in
  (0 <= theta <= PI)%R /\ x = (r * sin theta * cos phi)%R /\ y = (r * sin theta * sin phi)%R /\ z = (r * cos theta)%R.
Proof.
  intros r Hr theta phi. assert (Hx := pow2_ge_0 x). assert (Hy := pow2_ge_0 y). assert (Hz := pow2_ge_0 z).
  assert (Hrr : (r * r = x ^ 2 + y ^ 2 + z ^ 2)%R) by (apply sqrt_sqrt; lra).
  assert (Hp : (0 < r)%R) by (assert (0 <= r)%R by apply sqrt_pos; lra).
  assert (B : (-1 <= z / r <= 1)%R).
  { split; apply (Rmult_le_reg_r r); try assumption; unfold Rdiv; rewrite Rmult_assoc, Rinv_l by assumption; nra. }
  assert (Hrho : (r * sin theta = sqrt (x ^ 2 + y ^ 2))%R).
  { unfold theta. rewrite sin_acos by assumption. rewrite <- (sqrt_square r) at 1 by lra.
    rewrite <- sqrt_mult_alt by nra. f_equal. unfold Rsqr.
    replace (r * r * (1 - z / r * (z / r)))%R with (r * r - z ^ 2)%R by (field; lra). lra. }
  destruct (arctan2_spec x y) as [E1 E2]. destruct (pymod_2PI (arctan2 y x)) as [E3 E4].
  split; [apply acos_bound|]. rewrite Hrho. unfold phi. rewrite E3, E4. split; [lra|]. split; [lra|].
  unfold theta. rewrite cos_acos by assumption. field. lra.
Qed.
