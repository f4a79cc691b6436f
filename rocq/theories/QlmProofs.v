(* The analytic moments of qlm.py are volume integrals: cylindrical solids. *)
From Verif Require Export VInt Qlm.
From Verif Require Import ClebschGordanProofs TranslationsProofs.
From Verif Require Import Cplx.
Open Scope C_scope.

Lemma pw_nonneg x n : (0 <= n)%Z -> pw x n = (x ^ Z.to_nat n)%R.
Proof. intros H. unfold pw. rewrite <- (Z2Nat.id n) at 1 by lia. symmetry. apply pow_powerRZ. Qed.
Lemma pw_0 x : pw x 0 = 1%R. Proof. reflexivity. Qed.
Lemma pw_1 x : pw x 1 = x. Proof. unfold pw. simpl. ring. Qed.
Lemma pw_add_nonneg x a b : (0 <= a)%Z -> (0 <= b)%Z -> pw x (a + b) = (pw x a * pw x b)%R.
Proof. intros. rewrite !pw_nonneg by lia. rewrite Z2Nat.inj_add, pow_add by lia. reflexivity. Qed.
Lemma pw_add x a b : x <> 0%R -> pw x (a + b) = (pw x a * pw x b)%R.
Proof. intros. now apply powerRZ_add. Qed.
Lemma pw_neq0 x a : x <> 0%R -> pw x a <> 0%R.
Proof. intros. now apply powerRZ_NOR. Qed.
Lemma pw_mult x y a : (0 <= a)%Z -> pw (x * y) a = (pw x a * pw y a)%R.
Proof. intros. rewrite !pw_nonneg by lia. apply Rpow_mult_distr. Qed.
Lemma pw_opp x a : x <> 0%R -> pw x (- a) = (/ pw x a)%R.
Proof. intros. unfold pw. apply powerRZ_neg'. Qed.
Lemma pw_zero a : (0 < a)%Z -> pw 0 a = 0%R.
Proof. intros. rewrite pw_nonneg by lia. apply pow_i. lia. Qed.
Lemma pw2_neq0 a : pw 2 a <> 0%R. Proof. apply pw_neq0. lra. Qed.
Lemma pw_inv x a : x <> 0%R -> (0 <= a)%Z -> pw (/ x) a = (/ pw x a)%R.
Proof. intros. rewrite !pw_nonneg by lia. now rewrite pow_inv. Qed.
Lemma pw_div x y a : y <> 0%R -> (0 <= a)%Z -> pw (x / y) a = (pw x a / pw y a)%R.
Proof. intros. unfold Rdiv. rewrite pw_mult, pw_inv by assumption. reflexivity. Qed.
Lemma dp_RtoC x n : (0 <= n)%Z -> dp (RtoC x) n = RtoC (pw x n / zfact n).
Proof.
  intros. rewrite dp_nonneg, cpow_RtoC, pw_nonneg by assumption. rewrite RtoC_div by apply zfact_neq0. reflexivity.
Qed.
Lemma lmfac_eq l m : lmfac l m = sqrt (zfact (l + m) * zfact (l - m)).
Proof. unfold lmfac. rewrite exp_plus, !exp_gl. reflexivity. Qed.
Lemma nrm_split l m : (0 <= l)%Z -> (nrm l m = sqrt (1 / (4 * PI)) * sqrt (2 * IZR l + 1) * lmfac l m)%R.
Proof.
  intros H. rewrite lmfac_eq. unfold nrm. assert (Hp := PI_RGT_0). assert (0 <= IZR l)%R by (apply IZR_le; lia).
  assert (H1 := zfact_pos (l + m)). assert (H2 := zfact_pos (l - m)).
  rewrite <- !sqrt_mult_alt.
  - f_equal. field. lra.
  - apply Rmult_le_pos; [|lra]. apply Rlt_le, Rdiv_lt_0_compat; lra.
  - apply Rlt_le, Rdiv_lt_0_compat; lra.
Qed.
Lemma RtoC_scale (c : R) (z : C) : RtoC c * z = (c * fst z, c * snd z)%R.
Proof. apply C_eq; cbn; ring. Qed.

(* int_{-H/2}^{H/2} z^c/c! dz *)
Definition zval (H : R) (c : Z) : R := if Z.even c then (pw H (c + 1) / (pw 2 c * zfact (c + 1)))%R else 0%R.
Lemma even_sgn c : sgnC c = if Z.even c then 1 else RtoC (-1). Proof. reflexivity. Qed.
Lemma zint H c : (0 <= c)%Z -> is_CInt (fun z => dp (RtoC z) c) (- H / 2) (H / 2) (RtoC (zval H c)).
Proof.
  intros Hc. eapply is_CInt_val; [|apply is_CInt_dp].
  replace (RtoC (- H / 2)) with (- RtoC (H / 2)) by (rewrite <- RtoC_opp; f_equal; field).
  rewrite dp_opp, dp_RtoC by lia. rewrite pw_div by (lia || lra). rewrite sgnC_succ, even_sgn. unfold zval.
  assert (F := zfact_neq0 (c + 1)). assert (F2 := pw2_neq0 c).
  rewrite (pw_add_nonneg 2 c 1), pw_1 by lia.
  destruct (Z.even c).
  - transitivity (RtoC 2 * RtoC (pw H (c + 1) / (pw 2 c * 2) / zfact (c + 1))); [ring|]. rewrite <- RtoC_mult. f_equal. field. split; assumption.
  - ring.
Qed.
Lemma zval_odd H c : Z.even c = false -> zval H c = 0%R.
Proof. unfold zval. now intros ->. Qed.

(* polar form of the terms of the solid harmonic *)
Definition A_ (x y : R) : C := - (RtoC x - Ci * RtoC y) / RtoC 2.
Definition B_ (x y : R) : C := (RtoC x + Ci * RtoC y) / RtoC 2.
Lemma A_polar r t : A_ (r * cos t) (r * sin t) = cexpi (- t) * RtoC (- (r / 2)).
Proof. apply C_eq; unfold A_, cexpi; simpl; rewrite cos_neg, sin_neg; field. Qed.
Lemma B_polar r t : B_ (r * cos t) (r * sin t) = cexpi t * RtoC (r / 2).
Proof. apply C_eq; unfold B_, cexpi; simpl; field. Qed.
Lemma polar_term m k r t : (0 <= k)%Z -> (0 <= m + k)%Z ->
  dp (A_ (r * cos t) (r * sin t)) (m + k) * dp (B_ (r * cos t) (r * sin t)) k
  = sgnC (m + k) * RtoC (pw r (m + 2 * k) / (pw 2 (m + 2 * k) * zfact (m + k) * zfact k)) * cexpi (- (IZR m * t)).
Proof.
  intros Hk Hm. rewrite A_polar, B_polar, !dp_scal by assumption. rewrite RtoC_opp, dp_opp, !dp_RtoC by assumption.
  rewrite !cexpi_pow, !INR_IZR_INZ, !Z2Nat.id by assumption.
  transitivity (sgnC (m + k) * (RtoC (pw (r / 2) (m + k) / zfact (m + k)) * RtoC (pw (r / 2) k / zfact k)) * (cexpi (IZR (m + k) * - t) * cexpi (IZR k * t))); [ring|].
  rewrite <- cexpi_plus, <- RtoC_mult. f_equal; [f_equal; f_equal|f_equal; rewrite plus_IZR; ring].
  rewrite !pw_div by (lia || lra). replace (m + 2 * k)%Z with (m + k + k)%Z by ring. rewrite !(pw_add_nonneg _ (m + k) k) by lia.
  assert (F1 := zfact_neq0 (m + k)). assert (F2 := zfact_neq0 k). assert (F3 := pw2_neq0 (m + k)). assert (F4 := pw2_neq0 k).
  field. repeat split; assumption.
Qed.
Lemma solid_terms l m x y z : (0 <= m <= l)%Z ->
  solid l m x y z = zsum 0 ((l - m) / 2 + 1) (fun k => dp (A_ x y) (m + k) * dp (B_ x y) k * dp (RtoC z) (l - m - 2 * k)).
Proof.
  intros Hm. unfold solid. unfold tri. fold (A_ x y) (B_ x y).
  assert (Hd := Z.div_mod (l - m) 2 ltac:(lia)). assert (Hb := Z.mod_pos_bound (l - m) 2 ltac:(lia)).
  rewrite (zsum_sub 0 (l + 1) 0 ((l - m) / 2 + 1)).
  - apply zsum_ext. intros k Hk. ring.
  - lia.
  - lia.
  - intros k Hk Hk'. rewrite dp_neg by lia. ring.
Qed.

(* azimuthal integral *)
Lemma cder_cexpi c t : cder (fun t => cexpi (c * t)) t (RtoC c * Ci * cexpi (c * t)).
Proof.
  split; unfold cexpi; cbn.
  - auto_derive; auto. ring.
  - auto_derive; auto. ring.
Qed.
Definition Phi (m : Z) (phic phih : R) : C := RtoC (2 * phih * np_sinc (IZR m * phih / PI)) * cexpi (- (IZR m * phic)).
Lemma phi_int m phic phih : phih <> 0%R ->
  is_CInt (fun t => cexpi (- (IZR m * t))) (phic - phih) (phic + phih) (Phi m phic phih).
Proof.
  intros Hh. assert (Hp := PI_neq0). unfold Phi, np_sinc. destruct (Z.eq_dec m 0) as [->|Hm].
  - apply (is_CInt_ext (fun _ => 1)); [intros; rewrite Rmult_0_l, Ropp_0; symmetry; apply cexpi_0|].
    eapply is_CInt_val; [|apply is_CInt_const]. rewrite (Rmult_0_l phic), Ropp_0, cexpi_0.
    destruct (Req_EM_T (0 * phih / PI) 0) as [_|E]; [|exfalso; apply E; unfold Rdiv; ring].
    rewrite Cmult_1_l, Cmult_1_r. f_equal. ring.
  - assert (Hm' : IZR m <> 0%R) by now apply not_0_IZR.
    destruct (Req_EM_T (IZR m * phih / PI) 0) as [E|_].
    { exfalso. apply Rmult_integral in E. destruct E as [E|E]; [|now apply Rinv_neq_0_compat in E].
      apply Rmult_integral in E. tauto. }
    set (c := (- IZR m)%R). assert (Hc : c <> 0%R) by (unfold c; lra).
    apply (is_CInt_ext (fun t => cexpi (c * t))); [intros; f_equal; unfold c; ring|].
    assert (HcC := RtoC_neq0 c Hc). assert (HCi : Ci <> 0) by (intros E; injection E; lra).
    eapply is_CInt_val; [|apply (is_CInt_ftc (fun t => / (RtoC c * Ci) * cexpi (c * t)))].
    + replace (PI * (IZR m * phih / PI))%R with (- (c * phih))%R by (unfold c; field; assumption).
      replace (- (IZR m * phic))%R with (c * phic)%R by (unfold c; ring).
      replace (2 * phih * (sin (- (c * phih)) / - (c * phih)))%R with (2 * sin (c * phih) / c)%R by (rewrite sin_neg; field; split; assumption).
      rewrite RtoC_div by assumption. rewrite RtoC_mult.
      replace (c * (phic + phih))%R with (c * phic + c * phih)%R by ring. replace (c * (phic - phih))%R with (c * phic + - (c * phih))%R by ring.
      rewrite !cexpi_plus. 
      assert (E : cexpi (c * phih) - cexpi (- (c * phih)) = RtoC 2 * Ci * RtoC (sin (c * phih))).
      { unfold cexpi. rewrite cos_neg, sin_neg. apply C_eq; cbn; ring. }
      transitivity (/ (RtoC c * Ci) * cexpi (c * phic) * (cexpi (c * phih) - cexpi (- (c * phih)))); [field; split; assumption|].
      rewrite E. field. split; assumption.
    + intros t. eapply cder_val; [|apply cder_scal; apply cder_cexpi]. field. split; assumption.
    + intros t. eexists. apply cder_cexpi.
Qed.
Lemma regular_annular H Ri Ro pc ph : regular (annular_sector H Ri Ro pc ph).
Proof. apply (regular_int3 _ _ _ _ _ _ (fun f p r z => RtoC r * f (r * cos p)%R (r * sin p)%R z)); intros; [now rewrite H0|ring|ring|rewrite Cconj_mult, Cconj_RtoC; ring]. Qed.
Lemma regular_cone P R_ pc ph : regular (cone_sector P R_ pc ph).
Proof. apply (regular_int3 _ _ _ _ _ _ (fun f p z r => RtoC r * f (r * cos p)%R (r * sin p)%R z)); intros; [now rewrite H|ring|ring|rewrite Cconj_mult, Cconj_RtoC; ring]. Qed.

(* int_a^b r^n dr *)
Lemma rint n a b : (0 <= n)%Z -> is_CInt (fun r => RtoC (pw r n)) a b (RtoC ((pw b (n + 1) - pw a (n + 1)) / IZR (n + 1))).
Proof.
  intros Hn. apply (is_CInt_ext (fun r => RtoC (zfact n) * dp (RtoC r) n)).
  { intros r. rewrite dp_RtoC, <- RtoC_mult by assumption. f_equal. field. apply zfact_neq0. }
  eapply is_CInt_val; [|apply is_CInt_scal; apply is_CInt_dp]. rewrite !dp_RtoC by lia. rewrite <- RtoC_minus, <- RtoC_mult. f_equal.
  rewrite zfact_succ by assumption. assert (F := zfact_neq0 n). field. split; [apply not_0_IZR; lia|assumption].
Qed.
(* one monomial of the cylindrical expansion over the annular sector *)
Lemma annular_mono H Ri Ro pc ph m n c : ph <> 0%R -> (0 <= n)%Z -> (0 <= c)%Z ->
  is_int3 (pc - ph) (pc + ph) (fun _ => Ri) (fun _ => Ro) (fun _ _ => (- H / 2)%R) (fun _ _ => (H / 2)%R)
    (fun p r z => RtoC r * (RtoC (pw r n) * cexpi (- (IZR m * p)) * dp (RtoC z) c))
    (Phi m pc ph * RtoC ((pw Ro (n + 2) - pw Ri (n + 2)) / IZR (n + 2) * zval H c)).
Proof.
  intros Hph Hn Hc.
  exists (fun p r => RtoC (pw r (n + 1)) * cexpi (- (IZR m * p)) * RtoC (zval H c)), (fun p => cexpi (- (IZR m * p)) * RtoC ((pw Ro (n + 2) - pw Ri (n + 2)) / IZR (n + 2) * zval H c)).
  split; [|split].
  - intros p r. apply (is_CInt_ext (fun z => RtoC (pw r (n + 1)) * cexpi (- (IZR m * p)) * dp (RtoC z) c)).
    + intros z. rewrite pw_add_nonneg, pw_1, RtoC_mult by lia. ring.
    + apply is_CInt_scal. now apply zint.
  - intros p. apply (is_CInt_ext (fun r => cexpi (- (IZR m * p)) * RtoC (zval H c) * RtoC (pw r (n + 1)))); [intros; ring|].
    eapply is_CInt_val; [|apply is_CInt_scal; apply rint; lia]. replace (n + 1 + 1)%Z with (n + 2)%Z by ring. rewrite RtoC_mult. ring.
  - apply is_CInt_scal_r. now apply phi_int.
Qed.
Definition annular_int (H Ri Ro pc ph : R) (l m : Z) : C :=
  zsum 0 ((l - m) / 2 + 1) (fun k => sgnC (m + k) * RtoC (/ (pw 2 (m + 2 * k) * zfact (m + k) * zfact k)) *
    (Phi m pc ph * RtoC ((pw Ro (m + 2 * k + 2) - pw Ri (m + 2 * k + 2)) / IZR (m + 2 * k + 2) * zval H (l - m - 2 * k)))).
Lemma annular_solid H Ri Ro pc ph l m : ph <> 0%R -> (0 <= m <= l)%Z ->
  annular_sector H Ri Ro pc ph (fun x y z => solid l m x y z) (annular_int H Ri Ro pc ph l m).
Proof.
  intros Hph Hm. assert (RB := regular_annular H Ri Ro pc ph).
  assert (Hd := Z.div_mod (l - m) 2 ltac:(lia)). assert (Hb := Z.mod_pos_bound (l - m) 2 ltac:(lia)).
  eapply (reg_ext _ RB); [intros x y z; symmetry; apply solid_terms; assumption|].
  apply (reg_zsum _ 0 ((l - m) / 2 + 1) (fun k x y z => dp (A_ x y) (m + k) * dp (B_ x y) k * dp (RtoC z) (l - m - 2 * k)) _ RB).
  - assert (0 <= (l - m) / 2)%Z by (apply Z.div_pos; lia). lia.
  - intros k Hk. unfold annular_sector.
    eapply is_int3_ext; [|apply is_int3_scal; apply (annular_mono H Ri Ro pc ph m (m + 2 * k) (l - m - 2 * k)); (assumption || lia)].
    intros p r z. cbv beta. rewrite polar_term by lia. unfold Rdiv at 1. rewrite RtoC_mult. ring.
Qed.
Lemma annular_volume H Ri Ro pc ph : ph <> 0%R ->
  annular_sector H Ri Ro pc ph (fun _ _ _ => 1) (RtoC (H * (Ro ^ 2 - Ri ^ 2) * ph)).
Proof.
  intros Hph. assert (RB := regular_annular H Ri Ro pc ph).
  apply (reg_ext _ RB (fun x y z => solid 0 0 x y z)); [intros; apply solid_00|].
  apply (reg_val _ _ (annular_int H Ri Ro pc ph 0 0)); [|apply annular_solid; [assumption|lia]].
  unfold annular_int, Phi, np_sinc, zval. change ((0 - 0) / 2 + 1)%Z with (0 + 1)%Z. rewrite zsum_one.
  change (0 - 0 - 2 * 0)%Z with 0%Z. change (0 + 2 * 0)%Z with 0%Z. change (0 + 0)%Z with 0%Z. change (0 + 2)%Z with 2%Z. change (0 + 1)%Z with 1%Z.
  destruct (Req_EM_T (0 * ph / PI) 0) as [_|E]; [|exfalso; apply E; unfold Rdiv; ring].
  rewrite (Rmult_0_l pc), Ropp_0, cexpi_0, sgnC_0. change (Z.even 0) with true. cbv iota.
  rewrite !(pw_nonneg _ 2), !pw_0, pw_1 by lia. change (Z.to_nat 2) with 2%nat. rewrite zfact_0, zfact_1.
  rewrite !Cmult_1_l, !Cmult_1_r, <- !RtoC_mult. f_equal. field.
Qed.

Lemma half_mdiv q f c : half q f -> half (mdiv q c) (fun l m => f l m / RtoC c).
Proof.
  intros H l m Hl Hm. unfold mom, mdiv. cbn [deg at_]. fold (mom q l m). rewrite (H l m Hl Hm).
  destruct ((0 <=? m) && (m <=? l))%bool%Z; [reflexivity|]. unfold Cdiv. ring.
Qed.
Lemma rle_false x y : rle x y = false -> (y < x)%R. Proof. unfold rle. destruct (Rle_dec x y); [discriminate|]. intros _. lra. Qed.
Lemma rle_true x y : rle x y = true -> (x <= y)%R. Proof. unfold rle. destruct (Rle_dec x y); [auto|discriminate]. Qed.
Lemma rlt_false x y : rlt x y = false -> (y <= x)%R. Proof. unfold rlt. destruct (Rlt_dec x y); [discriminate|]. intros _. lra. Qed.
Lemma rlt_true x y : rlt x y = true -> (x < y)%R. Proof. unfold rlt. destruct (Rlt_dec x y); [auto|discriminate]. Qed.
Lemma req_false x y : req x y = false -> x <> y. Proof. unfold req. destruct (Req_EM_T x y); [discriminate|auto]. Qed.
Lemma req_true x y : req x y = true -> x = y. Proof. unfold req. destruct (Req_EM_T x y); [auto|discriminate]. Qed.
Lemma even_sub2 c k : Z.even (c - 2 * k) = Z.even c.
Proof. replace (c - 2 * k)%Z with (c + 2 * (- k))%Z by ring. now rewrite Z.even_add_mul_2. Qed.
Lemma exp3 a b c : exp (gammaln (a + 1) + gammaln (b + 1) + gammaln (c + 1)) = (zfact a * zfact b * zfact c)%R.
Proof. now rewrite !exp_plus, !exp_gl. Qed.
Lemma pw2_l l m k : (pw 2 l = pw 2 (m + 2 * k) * pw 2 (l - m - 2 * k))%R.
Proof. rewrite <- pw_add by lra. f_equal. ring. Qed.
Lemma pw2_pred l : (pw 2 (l - 1) = pw 2 l / 2)%R.
Proof. replace (l - 1)%Z with (l + - (1))%Z by ring. rewrite pw_add by lra. rewrite (pw_opp 2 1), pw_1 by lra. reflexivity. Qed.
Lemma IZR_pos_neq0 n : (0 < n)%Z -> IZR n <> 0%R. Proof. intros. apply not_0_IZR. lia. Qed.

Lemma annulus_entry_int mass H Ri Ro pc ph l m : (0 <= m <= l)%Z -> H <> 0%R -> ph <> 0%R -> (Ro ^ 2 - Ri ^ 2 <> 0)%R ->
  annulus_entry mass H Ri Ro pc ph l m / RtoC (Ro ^ 2 - Ri ^ 2)
  = RtoC (mass / (H * (Ro ^ 2 - Ri ^ 2) * ph)) * (RtoC (nrm l m) * annular_int H Ri Ro pc ph l m).
Proof.
  intros Hm HH Hph Hr. unfold annulus_entry, annular_int.
  assert (Hd := Z.div_mod (l - m) 2 ltac:(lia)). assert (Hb := Z.mod_pos_bound (l - m) 2 ltac:(lia)).
  destruct (Z.even (l - m)) eqn:Ev.
  - unfold Cdiv. rewrite <- !zsum_scal_r, <- !zsum_scal_l. apply zsum_ext. intros k Hk. unfold Phi.
    unfold zval. rewrite even_sub2, Ev.
    replace (l - m - 2 * k + 2)%Z with (l - m - 2 * k + 1 + 1)%Z by ring. rewrite exp3, nrm_split by lia.
    replace (l - 2 * k - m)%Z with (l - m - 2 * k)%Z by ring. replace (2 * k + m + 2)%Z with (m + 2 * k + 2)%Z by ring.
    replace (k + m)%Z with (m + k)%Z by ring.
    set (e := cexpi _). set (sg := sgnC _). set (si := np_sinc _).
    rewrite <- RtoC_inv by assumption.
    transitivity (sg * e * RtoC (pw H (l - m - 2 * k) / (pw 2 (l - 1) * IZR (m + 2 * k + 2)) * ((pw Ro (m + 2 * k + 2) - pw Ri (m + 2 * k + 2)) / (zfact k * zfact (m + k) * zfact (l - m - 2 * k + 1)))
       * (factor mass * sqrt (2 * IZR l + 1) * lmfac l m * si) * / (Ro ^ 2 - Ri ^ 2))); [rewrite !RtoC_mult; ring|].
    transitivity (sg * e * RtoC (mass / (H * (Ro ^ 2 - Ri ^ 2) * ph) * (sqrt (1 / (4 * PI)) * sqrt (2 * IZR l + 1) * lmfac l m *
       (/ (pw 2 (m + 2 * k) * zfact (m + k) * zfact k) * ((2 * ph * si) * ((pw Ro (m + 2 * k + 2) - pw Ri (m + 2 * k + 2)) / IZR (m + 2 * k + 2) * (pw H (l - m - 2 * k + 1) / (pw 2 (l - m - 2 * k) * zfact (l - m - 2 * k + 1))))))))); [|rewrite !RtoC_mult; ring].
    f_equal. f_equal. unfold factor. rewrite pw2_pred, (pw2_l l m k), (pw_add_nonneg H _ 1), pw_1 by lia.
    assert (F1 := zfact_neq0 k). assert (F2 := zfact_neq0 (m + k)). assert (F3 := zfact_neq0 (l - m - 2 * k + 1)).
    assert (F4 := pw2_neq0 (m + 2 * k)). assert (F5 := pw2_neq0 (l - m - 2 * k)). assert (F6 := IZR_pos_neq0 (m + 2 * k + 2) ltac:(lia)).
    field. repeat split; assumption.
  - rewrite zsum_0; [unfold Cdiv; ring|]. intros k Hk. rewrite zval_odd by now rewrite even_sub2. rewrite Rmult_0_r. ring.
Qed.
Lemma annulus_body L mass H Ri Ro pc ph q : (0 <= L)%Z -> annulus L mass H Ri Ro pc ph = Ok q ->
  deg q = L /\ moments_of_body q mass (annular_sector H Ri Ro pc ph).
Proof.
  intros HL E. unfold annulus in E.
  destruct (_ || _)%bool eqn:G; [discriminate|]. apply Bool.orb_false_elim in G. destruct G as [G G5]. apply Bool.orb_false_elim in G. destruct G as [G G4].
  apply Bool.orb_false_elim in G. destruct G as [G G3]. apply Bool.orb_false_elim in G. destruct G as [G1 G2].
  apply rle_false in G1, G3. apply rlt_false in G2, G4, G5.
  unfold is0 in E. destruct (Req_EM_T (Ro ^ 2 - Ri ^ 2) 0) as [|Hr]; [discriminate|]. injection E as <-.
  split; [rewrite deg_reflect; unfold mdiv; cbn; apply deg_fill; lia|].
  assert (HF := half_fill L (annulus_entry mass H Ri Ro pc ph) HL).
  apply (assemble _ mass (H * (Ro ^ 2 - Ri ^ 2) * ph) _ (fun l m => annulus_entry mass H Ri Ro pc ph l m / RtoC (Ro ^ 2 - Ri ^ 2))).
  - apply regular_annular.
  - repeat (apply Rmult_integral_contrapositive_currified); lra || assumption.
  - apply annular_volume. lra.
  - now apply half_mdiv.
  - intros l m Hm Hl. eexists. split.
    + exact (reg_scal _ (regular_annular H Ri Ro pc ph) (RtoC (nrm l m)) _ _ (annular_solid H Ri Ro pc ph l m ltac:(lra) Hm)).
    + apply annulus_entry_int; (assumption || lra).
Qed.
