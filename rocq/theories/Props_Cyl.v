(* C55: newt/qlm.py cyl_mom *)
From Coq Require Import FunctionalExtensionality.
From Verif Require Import QlmCyl Props_Qlm.
From Verif Require Import VInt CDeriv QlmProofs QlmProofs2 QlmProofs7 Solid Tri ClebschGordanProofs.
From Verif Require Import Cplx.
Open Scope C_scope.

(* solid harmonic in the half plane y = 0 *)
Definition T2 (l m : Z) (r z : R) : C := tri l m (RtoC (- r / 2)) (RtoC z) (RtoC (r / 2)).
Lemma solid_T2 l m r ph z : solid l m (r * cos ph) (r * sin ph) z = cexpi (- (IZR m * ph)) * T2 l m r z.
Proof.
  unfold solid, T2. replace (- (IZR m * ph))%R with (IZR m * - ph)%R by ring. rewrite <- wpow_cexpi.
  rewrite <- tri_phase by (apply cexpi_neq0). f_equal.
  - unfold cexpi. apply C_eq; cbn; rewrite ?cos_neg, ?sin_neg; field.
  - replace (/ cexpi (- ph)) with (cexpi ph).
    2:{ rewrite <- (Cmult_1_l (/ cexpi (- ph))), <- (cexpi_opp_mul ph). field. apply cexpi_neq0. }
    unfold cexpi. apply C_eq; cbn; field.
Qed.
Lemma T2_dz l m r z : cder (fun t => T2 l m r t) z (T2 (l - 1) m r z).
Proof.
  unfold T2. eapply cder_val; [|exact (cder_tri l m (fun _ => RtoC (- r / 2)) (fun t => RtoC t) (fun _ => RtoC (r / 2)) z 0 1 0 (cder_const _ _) (cder_id z) (cder_const _ _))].
  cbv beta. ring.
Qed.
Lemma lin_der c (r : R) : cder (fun t => RtoC (c * t)) r (RtoC c).
Proof.
  apply (cder_ext (fun t => RtoC c * RtoC t)); [intros; now rewrite RtoC_mult|].
  eapply cder_val; [|exact (cder_scal (RtoC c) _ r _ (cder_id r))]. ring.
Qed.
Lemma T2_dr l m r z : cder (fun t => T2 l m t z) r ((T2 (l - 1) (m + 1) r z - T2 (l - 1) (m - 1) r z) / RtoC 2).
Proof.
  unfold T2. apply (cder_ext (fun t => tri l m (RtoC (- / 2 * t)) (RtoC z) (RtoC (/ 2 * t)))).
  { intros t. f_equal; f_equal; field. }
  eapply cder_val; [|exact (cder_tri l m (fun t => RtoC (- / 2 * t)) (fun _ => RtoC z) (fun t => RtoC (/ 2 * t)) r _ 0 _ (lin_der _ r) (cder_const _ _) (lin_der _ r))].
  cbv beta. replace (- / 2 * r)%R with (- r / 2)%R by field. replace (/ 2 * r)%R with (r / 2)%R by field.
  cbv beta. rewrite RtoC_opp, RtoC_inv by lra. field.
Qed.
(* the radial antiderivative *)
Lemma rT2_dr l r z : cder (fun t => - (RtoC t * T2 (l + 1) 1 t z)) r (RtoC r * T2 l 0 r z).
Proof.
  eapply cder_val; [|exact (cder_opp _ r _ (cder_mult _ _ r _ _ (cder_id r) (T2_dr (l + 1) 1 r z)))].
  assert (E := tri_weight (l + 1) 1 (RtoC (- r / 2)) (RtoC z) (RtoC (r / 2))). rewrite Cmult_1_l in E.
  fold (T2 (l + 1) 1 r z) (T2 (l + 1 - 1) (1 - 1) r z) (T2 (l + 1 - 1) (1 + 1) r z) in E. cbv beta. rewrite E.
  replace (l + 1 - 1)%Z with l by ring. change (1 - 1)%Z with 0%Z. change (1 + 1)%Z with 2%Z.
  replace (- r / 2)%R with (- (r / 2))%R by field. rewrite RtoC_opp, RtoC_div by lra. field.
Qed.
Lemma cder_rT2 l z r : exists d, cder (fun t => RtoC t * T2 l 0 t z) r d.
Proof. exact (ex_intro _ _ (cder_mult _ _ r _ _ (cder_id r) (T2_dr l 0 r z))). Qed.

(* the integral of the m = 0 harmonic over the cylinder *)
Lemma cylinder_T2 L h Rad : solid_cylinder (2 * h) Rad (fun x y z => solid L 0 x y z)
  (- (RtoC (2 * PI * Rad) * (T2 (L + 2) 1 Rad h - T2 (L + 2) 1 Rad (- h)))).
Proof.
  unfold solid_cylinder, annular_sector, is_int3.
  exists (fun ph r => RtoC r * (T2 (L + 1) 0 r h - T2 (L + 1) 0 r (- h))),
    (fun ph => - (RtoC Rad * (T2 (L + 2) 1 Rad h - T2 (L + 2) 1 Rad (- h)))).
  split; [|split].
  - intros ph r. replace (- (2 * h) / 2)%R with (- h)%R by field. replace (2 * h / 2)%R with h by field.
    apply is_CInt_scal. apply (is_CInt_ext (fun z => T2 L 0 r z)).
    { intros z. rewrite solid_T2. replace (- (0 * ph))%R with 0%R by ring. rewrite cexpi_0. ring. }
    apply (is_CInt_ftc (fun z => T2 (L + 1) 0 r z)).
    + intros t. eapply cder_val; [|exact (T2_dz (L + 1) 0 r t)]. f_equal. ring.
    + intros t. exact (ex_intro _ _ (T2_dz L 0 r t)).
  - intros ph. 
    assert (I : forall z, is_CInt (fun r => RtoC r * T2 (L + 1) 0 r z) 0 Rad (- (RtoC Rad * T2 (L + 2) 1 Rad z))).
    { intros z. replace (L + 2)%Z with (L + 1 + 1)%Z by ring.
      eapply is_CInt_val; [|exact (is_CInt_ftc (fun t => - (RtoC t * T2 (L + 1 + 1) 1 t z)) _ 0 Rad (fun t => rT2_dr (L + 1) t z) (cder_rT2 (L + 1) z))].
      cbv beta. ring. }
    assert (J := is_CInt_plus _ _ _ _ _ _ (I h) (is_CInt_scal (RtoC (-1)) _ _ _ _ (I (- h)%R))).
    replace (RtoC (-1)) with (- RtoC 1) in J by (rewrite <- RtoC_opp; reflexivity).
    eapply is_CInt_ext; [|eapply is_CInt_val; [|exact J]]; [intros t; cbn; ring|ring].
  - eapply is_CInt_val; [|apply is_CInt_const]. replace (PI + PI - (PI - PI))%R with (2 * PI)%R by ring. rewrite !RtoC_mult. ring.
Qed.
Lemma T2_opp l m r z : (0 <= l)%Z -> T2 l m r (- z) = sgnC (l + m) * T2 l m r z.
Proof.
  intros Hl. unfold T2. rewrite sgnC_add.
  replace (sgnC l) with (cpow (RtoC (-1)) (Z.to_nat l)) by (rewrite <- sgnC_pow; f_equal; lia).
  transitivity (sgnC m * (cpow (RtoC (-1)) (Z.to_nat l) * tri l m (RtoC (- r / 2)) (RtoC z) (RtoC (r / 2)))); [|ring].
  rewrite <- tri_scal by exact Hl.
  rewrite <- tri_opp_AB. f_equal; rewrite <- ?RtoC_mult, <- ?RtoC_opp; f_equal; field.
Qed.
Lemma T2_scal c l m r z : (0 <= l)%Z -> T2 l m (c * r) (c * z) = RtoC (pw c l) * T2 l m r z.
Proof.
  intros Hl. unfold T2. rewrite pw_nonneg by exact Hl. rewrite <- cpow_RtoC.
  rewrite <- tri_scal by exact Hl. f_equal; rewrite <- ?RtoC_mult; f_equal; field.
Qed.
(* Legendre functions are the solid harmonics on the circle of radius R22 *)
Lemma T2_Plm l m r z : (0 <= m <= l)%Z -> (0 <= r)%R -> sqrt (r ^ 2 + z ^ 2) <> 0%R ->
  RtoC (pw (sqrt (r ^ 2 + z ^ 2)) l * Plm l m (z / sqrt (r ^ 2 + z ^ 2))) = RtoC (zfact (l + m)) * T2 l m r z.
Proof.
  intros Hm Hr N. set (n := sqrt (r ^ 2 + z ^ 2)) in *.
  assert (Hn : (n * n = r ^ 2 + z ^ 2)%R) by (apply sqrt_sqrt; nra).
  assert (P : (0 < n)%R). { assert (0 <= n)%R by apply sqrt_pos. destruct (Req_dec n 0); [contradiction|lra]. }
  replace (T2 l m r z) with (T2 l m (n * (r / n)) (n * (z / n))) by (f_equal; field; exact N).
  rewrite T2_scal by lia.
  assert (E := triU_Plm l m (r / n) (z / n)). unfold triU in E. unfold T2.
  rewrite E.
  - rewrite RtoC_mult, RtoC_div by apply zfact_neq0. field. apply zfactC_neq0.
  - replace (r / n * (r / n) + z / n * (z / n))%R with ((r ^ 2 + z ^ 2) / (n * n))%R by (field; exact N). rewrite <- Hn. field. exact N.
  - apply Rmult_le_pos; [exact Hr|]. left. now apply Rinv_0_lt_compat.
  - exact Hm.
Qed.

Lemma exp_ln_div a b : (0 < a)%R -> (0 < b)%R -> exp (ln a - ln b) = (a / b)%R.
Proof. intros. unfold Rminus. rewrite exp_plus, exp_Ropp, !exp_ln by assumption. reflexivity. Qed.
Lemma cyl_gamfac_0 L : (0 <= L)%Z -> cyl_gamfac L 0 = 1%R.
Proof.
  intros. unfold cyl_gamfac. rewrite (proj2 (Z.ltb_ge _ _)) by lia. rewrite Z.add_0_r, Z.sub_0_r. rewrite Rminus_diag_eq by reflexivity.
  rewrite exp_0. apply sqrt_1.
Qed.
Lemma nrm_l0 L : (0 <= L)%Z -> nrm L 0 = (zfact L * sqrt ((2 * IZR L + 1) / (4 * PI)))%R.
Proof.
  intros HL. unfold nrm. rewrite Z.add_0_r, Z.sub_0_r. 
  replace ((2 * IZR L + 1) * zfact L * zfact L / (4 * PI))%R with (zfact L * zfact L * ((2 * IZR L + 1) / (4 * PI)))%R by (field; apply PI_neq0).
  assert (0 <= IZR L)%R by (apply IZR_le; lia). assert (P := PI_RGT_0). assert (F := zfact_pos L).
  rewrite sqrt_mult_alt by nra. rewrite sqrt_square by lra. reflexivity.
Qed.
Lemma R22_pos H Rad : (Rad <> 0 \/ H <> 0)%R -> sqrt (Rad ^ 2 + H ^ 2) <> 0%R.
Proof. intros [N | N] E; apply sqrt_eq_0 in E; nra. Qed.
(* each term R22^(L+2) momval[i] *)
Lemma momval_T2 L H Rad i : (0 <= i <= L + 2)%Z -> (0 <= Rad)%R -> sqrt (Rad ^ 2 + H ^ 2) <> 0%R ->
  RtoC (pw (sqrt (Rad ^ 2 + H ^ 2)) (L + 2) * cyl_momval L H Rad i) = RtoC (zfact (L + 2 + i)) * (T2 (L + 2) i Rad H - T2 (L + 2) i Rad (- H)).
Proof.
  intros Hi HR N. unfold cyl_momval. cbv zeta. rewrite Rmult_minus_distr_l, RtoC_minus.
  assert (E1 := T2_Plm (L + 2) i Rad H Hi HR N). rewrite E1.
  assert (Q : (Rad ^ 2 + (- H) ^ 2 = Rad ^ 2 + H ^ 2)%R) by ring.
  assert (E2 := T2_Plm (L + 2) i Rad (- H) Hi HR). rewrite Q in E2. rewrite (E2 N). ring.
Qed.

(* ==== C55 ==================================================================== *)
(* order 0, degree at least 1: the returned number is the moment of the homogeneous cylinder of radius Rad and
   height 2H (unit density) times -(L+3)!/(4 pi^2), whatever density was asked for *)
Theorem C55_m0_is_a_multiple_of_the_moment : forall L dens H Rad, (1 <= L)%Z -> (0 < H)%R -> (0 < Rad)%R ->
  exists v I, cyl_mom L 0 dens H Rad = Ok v /\ solid_cylinder (2 * H) Rad (fun x y z => rsolid L 0 (x, y, z)) I /\
    RtoC v = - RtoC (zfact (L + 3) / (4 * PI ^ 2)) * I.
Proof.
  intros L dens H Rad HL HH HR. assert (N := R22_pos H Rad (or_intror (Rgt_not_eq _ _ HH))).
  unfold cyl_mom. rewrite (proj2 (Z.leb_gt _ _)), (proj2 (Z.ltb_ge _ _)) by lia. cbn [orb]. cbv zeta.
  rewrite is0_f by exact N. cbn [Z.eqb]. eexists; eexists. split; [reflexivity|]. split.
  - change (fun x y z : R => rsolid L 0 (x, y, z)) with (fun x y z : R => RtoC (nrm L 0) * solid L 0 x y z).
    exact (reg_scal _ (regular_annular _ _ _ _ _) _ _ _ (cylinder_T2 L H Rad)).
  - rewrite nrm_l0 by lia. unfold cyl_fact. rewrite cyl_gamfac_0 by lia. rewrite Z.sub_0_r.
    assert (M := momval_T2 L H Rad 1 ltac:(lia) ltac:(lra) N). replace (L + 2 + 1)%Z with (L + 3)%Z in M by ring.
    set (D := T2 (L + 2) 1 Rad H - _) in *. set (s := sqrt ((2 * _ + 1) / _)).
    set (p := pw _ _) in *. set (mv := cyl_momval _ _ _ _) in *.
    replace (s * 1 * zfact L / (2 * PI) * Rad * p * mv)%R with (s * zfact L / (2 * PI) * Rad * (p * mv))%R by (field; apply PI_neq0).
    rewrite RtoC_mult, M.
    assert (E : RtoC (s * zfact L / (2 * PI) * Rad) = RtoC (/ (4 * PI ^ 2)) * (RtoC (zfact L * s) * RtoC (2 * PI * Rad))).
    { rewrite <- !RtoC_mult. f_equal. field. apply PI_neq0. }
    rewrite E. unfold Rdiv. rewrite (RtoC_mult (zfact (L + 3))). ring.
Qed.

(* the density argument has no influence, and no sectoral or monopole value is ever returned *)
Theorem C55_density_ignored : forall L M d1 d2 H Rad, cyl_mom L M d1 H Rad = cyl_mom L M d2 H Rad.
Proof. reflexivity. Qed.
Theorem C55_order_at_least_degree_raises : forall L M dens H Rad, (0 <= L <= M)%Z -> cyl_mom L M dens H Rad = Err ValueError.
Proof. intros. unfold cyl_mom. now rewrite (proj2 (Z.leb_le _ _)) by lia. Qed.
(* and it returns for every positive size otherwise *)
Theorem C55_returns : forall L M dens H Rad, (0 <= M < L)%Z -> (0 < H)%R -> (0 < Rad)%R -> exists v, cyl_mom L M dens H Rad = Ok v.
Proof.
  intros L M dens H Rad HL HH HR. assert (N := R22_pos H Rad (or_intror (Rgt_not_eq _ _ HH))).
  unfold cyl_mom. rewrite (proj2 (Z.leb_gt _ _)), (proj2 (Z.ltb_ge _ _)) by lia. cbn [orb]. cbv zeta.
  rewrite is0_f by exact N. destruct (M =? 0)%Z; [eauto|]. rewrite (proj2 (Z.ltb_ge _ _)) by lia. cbn [andb]. eauto.
Qed.
Lemma np_sum_scal n c f : np_sum n (fun k => (c * f k)%R) = (c * np_sum n f)%R.
Proof. unfold np_sum. induction (seq 0 (Z.to_nat n)) as [|a l IH]; cbn; [ring|]. rewrite IH. ring. Qed.
Lemma np_sum_ext n f g : (forall k, (0 <= k < n)%Z -> f k = g k) -> np_sum n f = np_sum n g.
Proof.
  intros E. unfold np_sum. assert (A : forall k, In k (seq 0 (Z.to_nat n)) -> f (Z.of_nat k) = g (Z.of_nat k)).
  { intros k Hk. apply in_seq in Hk. apply E. lia. }
  induction (seq 0 (Z.to_nat n)) as [|a l IH]; cbn; [reflexivity|]. rewrite IH, A; auto; [now left|]. intros; apply A; now right.
Qed.
(* scaling both lengths by c multiplies the result by c^(L+3), as for a true moment of fixed density *)
Theorem C55_homogeneous : forall L M dens H Rad c v, (0 <= M < L)%Z -> (0 < H)%R -> (0 < Rad)%R -> (0 < c)%R ->
  cyl_mom L M dens H Rad = Ok v -> cyl_mom L M dens (c * H) (c * Rad) = Ok (c ^ Z.to_nat (L + 3) * v)%R.
Proof.
  intros L M dens H Rad c v HL HH HR Hc. assert (N := R22_pos H Rad (or_intror (Rgt_not_eq _ _ HH))).
  assert (S2 : sqrt ((c * Rad) ^ 2 + (c * H) ^ 2) = (c * sqrt (Rad ^ 2 + H ^ 2))%R).
  { replace ((c * Rad) ^ 2 + (c * H) ^ 2)%R with (c * c * (Rad ^ 2 + H ^ 2))%R by ring. rewrite sqrt_mult_alt by nra. now rewrite sqrt_square by lra. }
  assert (MV : forall i, cyl_momval L (c * H) (c * Rad) i = cyl_momval L H Rad i).
  { intros i. unfold cyl_momval. cbv zeta. rewrite S2. f_equal; f_equal; field; split; auto; lra. }
  assert (P : pw (c * sqrt (Rad ^ 2 + H ^ 2)) (L + 2) = (pw c (L + 2) * pw (sqrt (Rad ^ 2 + H ^ 2)) (L + 2))%R) by (apply pw_mult; lia).
  assert (Q : (c ^ Z.to_nat (L + 3) = c * pw c (L + 2))%R).
  { rewrite pw_nonneg by lia. replace (Z.to_nat (L + 3)) with (S (Z.to_nat (L + 2))) by lia. reflexivity. }
  unfold cyl_mom. rewrite (proj2 (Z.leb_gt _ _)), (proj2 (Z.ltb_ge _ _)) by lia. cbn [orb]. cbv zeta. rewrite S2.
  rewrite (is0_f (sqrt (Rad ^ 2 + H ^ 2))) by exact N.
  rewrite (is0_f (c * sqrt (Rad ^ 2 + H ^ 2))) by (apply Rmult_integral_contrapositive; split; [lra|exact N]).
  rewrite P, Q. rewrite (proj2 (Z.ltb_ge M 0)) by lia. cbn [andb]. destruct (M =? 0)%Z; intros E; apply Ok_inj in E; subst v; f_equal.
  - rewrite MV. ring.
  - rewrite <- np_sum_scal. apply np_sum_ext. intros k Hk. rewrite MV. ring.
Qed.
(* zero for odd degree: the cylinder is symmetric about z = 0 *)
Theorem C55_odd_degree_zero : forall L dens H Rad, (1 <= L)%Z -> Z.odd L = true -> (0 < H)%R -> (0 < Rad)%R ->
  cyl_mom L 0 dens H Rad = Ok 0%R.
Proof.
  intros L dens H Rad HL Ho HH HR. assert (N := R22_pos H Rad (or_intror (Rgt_not_eq _ _ HH))).
  unfold cyl_mom. rewrite (proj2 (Z.leb_gt _ _)), (proj2 (Z.ltb_ge _ _)) by lia. cbn [orb]. cbv zeta.
  rewrite is0_f by exact N. cbn [Z.eqb]. f_equal.
  assert (M := momval_T2 L H Rad 1 ltac:(lia) ltac:(lra) N). rewrite T2_opp in M by lia.
  replace (sgnC (L + 2 + 1)) with (RtoC 1) in M.
  2:{ rewrite <- sgnR_C. unfold sgnR. replace (Z.even (L + 2 + 1)) with true; [reflexivity|].
      rewrite !Z.even_add, <- Z.negb_odd, Ho. reflexivity. }
  replace (RtoC (zfact (L + 2 + 1)) * (T2 (L + 2) 1 Rad H - RtoC 1 * T2 (L + 2) 1 Rad H)) with (RtoC 0) in M by ring.
  apply RtoC_inj in M. rewrite Rmult_assoc, M. ring.
Qed.
(* for positive orders the true moment is zero (rotational symmetry), the returned number is not: degree 3, order 1 *)
Theorem C55_order_one_wrong : forall dens H Rad, (0 < H)%R -> (0 < Rad)%R ->
  solid_cylinder (2 * H) Rad (fun x y z => rsolid 3 1 (x, y, z)) 0 /\
  exists v, cyl_mom 3 1 dens H Rad = Ok v /\ v <> 0%R.
Proof.
  intros dens H Rad HH HR. assert (N := R22_pos H Rad (or_intror (Rgt_not_eq _ _ HH))). split.
  - destruct (C35_cylinder 3 1 (2 * H) Rad) as (q & E & D & B); [lia|lra|lra|]. assert (SM := cylinder_same 3 1 (2 * H) Rad q ltac:(lia) E).
    destruct B as (V & NV & BV & BI & _). destruct (BI 3 1)%Z as (I & HI & EI); [rewrite D; lia|lia|].
    replace (RtoC 0) with I; [exact HI|].
    assert (Z0 : mom q 3 1 = 0).
    { destruct SM as [_ SM]. rewrite <- SM; [|rewrite deg_reflect, deg_fill by lia; cbn; lia|rewrite deg_reflect, deg_fill by lia; cbn; lia]. 
      assert (HF := half_fill 3 (cyl_entry 1 (2 * H) Rad) ltac:(lia)).
      rewrite (reflect_mom _ (cyl_entry 1 (2 * H) Rad)); [|exact HF|rewrite deg_fill by lia; cbn; lia|rewrite deg_fill by lia; cbn; lia].
      unfold cyl_entry. cbn. apply C_eq; cbn; ring. }
    rewrite Z0 in EI. assert (K : RtoC (1 / V) <> 0). { intros K. apply RtoC_inj in K. apply NV. 
      assert (1 = V * (1 / V))%R by (field; exact NV). rewrite K in *. lra. }
    replace I with (/ RtoC (1 / V) * (RtoC (1 / V) * I)) by (field; exact K). rewrite <- EI. ring.
  - assert (M4 := momval_T2 3 H Rad 4 ltac:(lia) ltac:(lra) N). assert (M5 := momval_T2 3 H Rad 5 ltac:(lia) ltac:(lra) N).
    rewrite T2_opp in M4, M5 by lia. 
    replace (sgnC (3 + 2 + 4)) with (RtoC (-1)) in M4 by (now rewrite <- sgnR_C).
    replace (sgnC (3 + 2 + 5)) with (RtoC 1) in M5 by (now rewrite <- sgnR_C).
    assert (T4 : T2 (3 + 2) 4 Rad H = RtoC (H * ((- Rad / 2) ^ 4 / 24))).
    { unfold T2, tri. rewrite zsum_first, (zsum_0 (0 + 1)) by (try lia; intros k Hk; rewrite (dp_neg (RtoC H)) by lia; ring).
      cbn [Z.add Z.sub Z.mul Z.opp Z.pos_sub Pos.add]. rewrite !dp_nonneg by lia. rewrite !cpow_RtoC.
      assert (F4 : zfact 4 = 24%R) by (unfold zfact; change (Z.to_nat 4) with 4%nat; change (fact 4) with 24%nat; rewrite INR_IZR_INZ; reflexivity).
      change (Z.succ_double (Z.double 0) - 0)%Z with 1%Z. change (Z.to_nat 1) with 1%nat. change (Z.to_nat 4) with 4%nat. change (Z.to_nat 0) with 0%nat. rewrite F4, zfact_0, zfact_1.
      rewrite <- !RtoC_div, <- !RtoC_mult, <- RtoC_plus by lra. f_equal. field. }
    assert (K0 : forall a x : C, a * (x - RtoC 1 * x) = RtoC 0) by (intros; ring). rewrite K0 in M5.
    assert (F9 := zfact_pos (3 + 2 + 4)). set (f9 := zfact (3 + 2 + 4)) in *. clearbody f9.
    rewrite T4 in M4. rewrite <- RtoC_mult, <- RtoC_minus, <- RtoC_mult in M4. apply RtoC_inj in M4, M5.
    eexists. split.
    + unfold cyl_mom. change ((3 <=? 1) || (3 + 3 <? 3 - 1))%Z%bool with false. cbv iota zeta. rewrite is0_f by exact N.
      change (1 =? 0)%Z with false. change ((1 <? 0) && Z.even 1)%Z%bool with false. cbv iota. reflexivity.
    + change (3 - 1)%Z with 2%Z. unfold np_sum. change (seq 0 (Z.to_nat 2)) with (0 :: 1 :: nil)%nat. cbn [fold_right].
      change (Z.of_nat 0) with 0%Z. change (Z.of_nat 1) with 1%Z. change (1 + 3 + 0)%Z with 4%Z. change (1 + 3 + 1)%Z with 5%Z.
      rewrite !(Rmult_assoc _ (pw _ _)), M4, M5.
      assert (A0 : (cyl_fac2 1 0 = 4 / 3)%R) by (unfold cyl_fac2; field). rewrite A0.
      assert (G : (0 < cyl_fact 3 1)%R).
      { assert (P := PI_RGT_0). unfold cyl_fact, cyl_gamfac. change (3 + 1 <? 0)%Z with false. cbv iota.
        apply Rmult_lt_0_compat; [|apply Rinv_0_lt_compat; lra]. apply Rmult_lt_0_compat; [|apply zfact_pos].
        apply Rmult_lt_0_compat; apply sqrt_lt_R0; [|apply exp_pos]. apply Rmult_lt_0_compat; [lra|apply Rinv_0_lt_compat; lra]. }
      apply Rgt_not_eq. assert (0 < cyl_fact 3 1 * Rad)%R by nra. assert (0 < f9 * H)%R by nra. assert (0 < Rad ^ 4)%R by (apply pow_lt; lra).
      replace (_ + _)%R with (cyl_fact 3 1 * Rad * (f9 * H) * Rad ^ 4 / 144)%R by field.
      apply Rmult_lt_0_compat; [|lra]. repeat (apply Rmult_lt_0_compat; try assumption).
Qed.

(* the hypotheses are met *)
Example C55_nonvacuous : exists v, cyl_mom 2 0 7 1 1 = Ok v /\ v <> 0%R.
Proof.
  assert (N := R22_pos 1 1 (or_introl R1_neq_R0)).
  assert (M := momval_T2 2 1 1 1 ltac:(lia) ltac:(lra) N). rewrite T2_opp in M by lia.
  replace (sgnC (2 + 2 + 1)) with (RtoC (-1)) in M by (now rewrite <- sgnR_C).
  assert (T4 : T2 (2 + 2) 1 1 1 = RtoC (- 1 / 48)).
  { unfold T2, tri. rewrite zsum_first, zsum_first, (zsum_0 (0 + 1 + 1)) by (try lia; intros k Hk; rewrite (dp_neg (RtoC 1)) by lia; ring).
    change (2 + 2 - 1 - 2 * 0)%Z with 3%Z. change (2 + 2 - 1 - 2 * (0 + 1))%Z with 1%Z. change (1 + 0)%Z with 1%Z. change (1 + (0 + 1))%Z with 2%Z. change (0 + 1)%Z with 1%Z.
    rewrite !dp_nonneg by lia. rewrite !cpow_RtoC. change (Z.to_nat 3) with 3%nat. change (Z.to_nat 2) with 2%nat. change (Z.to_nat 1) with 1%nat. change (Z.to_nat 0) with 0%nat.
    assert (F3 : zfact 3 = 6%R) by (unfold zfact; change (Z.to_nat 3) with 3%nat; change (fact 3) with 6%nat; rewrite INR_IZR_INZ; reflexivity).
    assert (F2 : zfact 2 = 2%R) by (unfold zfact; change (Z.to_nat 2) with 2%nat; change (fact 2) with 2%nat; rewrite INR_IZR_INZ; reflexivity).
    rewrite F3, F2, zfact_0, zfact_1. rewrite <- !RtoC_div, <- !RtoC_mult, <- !RtoC_plus by lra. f_equal. field. }
  rewrite T4 in M. assert (F := zfact_pos (2 + 2 + 1)). set (f := zfact (2 + 2 + 1)) in *. clearbody f.
  rewrite <- RtoC_mult, <- RtoC_minus, <- RtoC_mult in M. apply RtoC_inj in M.
  eexists. split.
  - unfold cyl_mom. change ((2 <=? 0) || (2 + 3 <? 2 - 0))%Z%bool with false. cbv iota zeta. rewrite is0_f by exact N.
    change (0 =? 0)%Z with true. cbv iota. reflexivity.
  - rewrite (Rmult_assoc _ (pw _ _)), M. unfold cyl_fact. rewrite cyl_gamfac_0 by lia. assert (P := PI_RGT_0).
    set (s5 := sqrt _). assert (0 < s5)%R by (apply sqrt_lt_R0, Rmult_lt_0_compat; [lra|apply Rinv_0_lt_compat; lra]).
    assert (F2 := zfact_pos (2 - 0)). set (g := zfact (2 - 0)) in *. clearbody g s5.
    assert (0 < s5 * g * f)%R by (repeat apply Rmult_lt_0_compat; assumption).
    replace (_ * _)%R with (- (s5 * g * f / (48 * PI)))%R by (field; lra).
    assert (0 < s5 * g * f / (48 * PI))%R by (apply Rmult_lt_0_compat; [assumption|apply Rinv_0_lt_compat; lra]). lra.
Qed.
Print Assumptions C55_m0_is_a_multiple_of_the_moment.
Print Assumptions C55_order_one_wrong.
