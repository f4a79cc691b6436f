(* The analytic moments of qlm.py are volume integrals: symmetric prisms, pyramid. *)
From Verif Require Export QlmProofs3.
From Verif Require Import ClebschGordanProofs TranslationsProofs.
From Verif Require Import Cplx.
Open Scope C_scope.

Definition coef2 (m k q j : Z) : C :=
  sgnC (m + k) * cpow (- Ci) (Z.to_nat q) * RtoC (zcomb m q * zcomb k j / (pw 2 (m + 2 * k) * (zfact (m + k) * zfact k))).
Lemma binom_pow (a b : C) n : (0 <= n)%Z -> cpow (a + b) (Z.to_nat n) = zsum 0 (n + 1) (fun p => RtoC (zcomb n p) * (cpow a (Z.to_nat (n - p)) * cpow b (Z.to_nat p))).
Proof.
  intros Hn. rewrite dp_pow, dp_add by assumption. rewrite <- zsum_scal_l. apply zsum_ext. intros p Hp.
  rewrite zcomb_fact, !dp_nonneg by lia. assert (F1 := zfact_neq0 p). assert (F2 := zfact_neq0 (n - p)).
  rewrite RtoC_div, RtoC_mult by now apply Rmult_integral_contrapositive. field. split; apply zfactC_neq0.
Qed.
Lemma term2 m k x y : (0 <= m)%Z -> (0 <= k)%Z -> dp (A_ x y) (m + k) * dp (B_ x y) k =
  zsum 0 (m + 1) (fun q => zsum 0 (k + 1) (fun j => coef2 m k q j * RtoC (pw x (m + 2 * k - (q + 2 * j)) * pw y (q + 2 * j)))).
Proof.
  intros Hm Hk. rewrite !dp_nonneg by lia.
  transitivity (sgnC (m + k) * RtoC (/ (pw 2 (m + 2 * k) * (zfact (m + k) * zfact k))) * (cpow (RtoC x + - Ci * RtoC y) (Z.to_nat m) * cpow (RtoC (x * x) + RtoC (y * y)) (Z.to_nat k))).
  - replace (A_ x y) with (RtoC (-1) * (RtoC (/ 2) * (RtoC x + - Ci * RtoC y))) by (apply C_eq; unfold A_; simpl; field).
    replace (B_ x y) with (RtoC (/ 2) * (RtoC x + Ci * RtoC y)) by (apply C_eq; unfold B_; simpl; field).
    replace (RtoC (x * x) + RtoC (y * y)) with ((RtoC x + - Ci * RtoC y) * (RtoC x + Ci * RtoC y)) by (apply C_eq; simpl; ring).
    rewrite !cpow_mul. replace (Z.to_nat (m + k)) with (Z.to_nat m + Z.to_nat k)%nat by lia. rewrite !cpow_add.
    rewrite <- sgnC_pow, Z2Nat.id by lia. rewrite <- (sgnC_pow (Z.to_nat k)), Z2Nat.id by lia. rewrite sgnC_add.
    rewrite !cpow_RtoC.
    rewrite <- !pw_nonneg by lia. rewrite !pw_inv by (lia || lra).
    replace (m + 2 * k)%Z with (m + k + k)%Z by ring. rewrite (pw_add_nonneg 2 (m + k) k), (pw_add_nonneg 2 m k) by lia.
    assert (F1 := pw2_neq0 m). assert (F2 := pw2_neq0 k). assert (F3 := zfact_neq0 (m + k)). assert (F4 := zfact_neq0 k).
    rewrite !RtoC_inv by (repeat (apply Rmult_integral_contrapositive_currified); assumption). rewrite !RtoC_mult.
    field. repeat split; now apply RtoC_neq0.
  - rewrite !binom_pow by assumption. rewrite zsum_mul, <- zsum_scal_l. apply zsum_ext. intros q Hq. rewrite <- zsum_scal_l. apply zsum_ext. intros j Hj.
    unfold coef2. rewrite !cpow_mul, !cpow_RtoC. rewrite !Rpow_mult_distr, <- !pw_nonneg by lia.
    replace (m + 2 * k - (q + 2 * j))%Z with ((m - q) + ((k - j) + (k - j)))%Z by ring. replace (q + 2 * j)%Z with (q + (j + j))%Z by ring.
    rewrite !(pw_add_nonneg _ (m - q)), !(pw_add_nonneg _ (k - j) (k - j)), (pw_add_nonneg y q), (pw_add_nonneg y j j) by lia.
    unfold Rdiv. rewrite !RtoC_mult. ring.
Qed.
Lemma zsum_even_idx m (f : Z -> C) : (0 <= m)%Z -> (forall q, Z.even q = false -> f q = 0) -> zsum 0 (m + 1) f = zsum 0 (m / 2 + 1) (fun p => f (2 * p)%Z).
Proof.
  intros Hm H. pattern m. apply natlike_ind; [| |exact Hm]; clear m Hm.
  - change (0 / 2 + 1)%Z with (0 + 1)%Z. now rewrite !zsum_one.
  - intros m Hm IH. unfold Z.succ. rewrite zsum_last by lia. rewrite IH.
    assert (Hd := Z.div_mod m 2 ltac:(lia)). assert (Hb := Z.mod_pos_bound m 2 ltac:(lia)).
    assert (Hd' := Z.div_mod (m + 1) 2 ltac:(lia)). assert (Hb' := Z.mod_pos_bound (m + 1) 2 ltac:(lia)).
    assert (0 <= m / 2)%Z by (apply Z.div_pos; lia).
    destruct (Z.even (m + 1)) eqn:Ev.
    + apply Z.even_spec in Ev. destruct Ev as [w Ew]. replace ((m + 1) / 2)%Z with (m / 2 + 1)%Z by lia. rewrite (zsum_last 0 (m / 2 + 1)) by lia.
      do 2 f_equal. lia.
    + rewrite (H _ Ev). rewrite <- Z.negb_odd in Ev. apply Bool.negb_false_iff in Ev. apply Z.odd_spec in Ev. destruct Ev as [w Ew].
      replace ((m + 1) / 2)%Z with (m / 2)%Z by lia. ring.
Qed.
Lemma cpow_mCi_even p : (0 <= p)%Z -> cpow (- Ci) (Z.to_nat (2 * p)) = sgnC p.
Proof.
  intros Hp. replace (Z.to_nat (2 * p)) with (2 * Z.to_nat p)%nat by lia. rewrite <- cpow_pow.
  replace (cpow (- Ci) 2) with (RtoC (-1)) by (apply C_eq; simpl; ring). rewrite <- sgnC_pow. f_equal. lia.
Qed.
Definition mono_int2 (mu : Z -> Z -> Z -> R) (l m : Z) : C :=
  zsum 0 ((l - m) / 2 + 1) (fun k => zsum 0 (m / 2 + 1) (fun p => zsum 0 (k + 1) (fun j =>
    sgnC (m + k) * sgnC p * RtoC (zcomb m (2 * p) * zcomb k j / (pw 2 (m + 2 * k) * (zfact (m + k) * zfact k)))
     * RtoC (mu (m + 2 * k - (2 * j + 2 * p)) (2 * j + 2 * p) (l - m - 2 * k))%Z))).
Lemma mono_solid2 (B : body) mu l m : regular B ->
  (forall a b c, (0 <= a)%Z -> (0 <= b)%Z -> (0 <= c)%Z -> B (mono a b c) (RtoC (mu a b c))) ->
  (forall a b c, Z.even b = false -> mu a b c = 0%R) -> (0 <= m <= l)%Z ->
  B (fun x y z => solid l m x y z) (mono_int2 mu l m).
Proof.
  intros RB H H0 Hm. destruct (half_range l m Hm) as [Hr Hr'].
  apply (reg_ext B RB (fun x y z => zsum 0 ((l - m) / 2 + 1) (fun k => zsum 0 (m + 1) (fun q => zsum 0 (k + 1) (fun j => coef2 m k q j * mono (m + 2 * k - (q + 2 * j)) (q + 2 * j) (l - m - 2 * k) x y z))))).
  { intros x y z. rewrite solid_terms by assumption. apply zsum_ext. intros k Hk. rewrite term2, <- zsum_scal_r by lia. apply zsum_ext. intros q Hq.
    rewrite <- zsum_scal_r. apply zsum_ext. intros j Hj. unfold mono. ring. }
  unfold mono_int2.
  apply (reg_zsum B 0 _ (fun k x y z => zsum 0 (m + 1) (fun q => zsum 0 (k + 1) (fun j => coef2 m k q j * mono (m + 2 * k - (q + 2 * j)) (q + 2 * j) (l - m - 2 * k) x y z)))); [assumption|lia|].
  intros k Hk.
  apply (reg_val _ _ (zsum 0 (m + 1) (fun q => zsum 0 (k + 1) (fun j => coef2 m k q j * RtoC (mu (m + 2 * k - (q + 2 * j)) (q + 2 * j) (l - m - 2 * k))%Z)))).
  { rewrite zsum_even_idx; [|lia|].
    - apply zsum_ext. intros p Hp. apply zsum_ext. intros j Hj. unfold coef2. rewrite cpow_mCi_even by lia. replace (2 * p + 2 * j)%Z with (2 * j + 2 * p)%Z by ring. reflexivity.
    - intros q Hq. apply zsum_0. intros j Hj. rewrite H0; [ring|]. now rewrite Z.even_add_mul_2. }
  apply (reg_zsum B 0 _ (fun q x y z => zsum 0 (k + 1) (fun j => coef2 m k q j * mono (m + 2 * k - (q + 2 * j)) (q + 2 * j) (l - m - 2 * k) x y z))); [assumption|lia|].
  intros q Hq.
  apply (reg_zsum B 0 _ (fun j x y z => coef2 m k q j * mono (m + 2 * k - (q + 2 * j)) (q + 2 * j) (l - m - 2 * k) x y z)); [assumption|lia|].
  intros j Hj. apply (reg_scal B RB). apply H; lia.
Qed.

(* rotations about z *)
Lemma solid_turn t l m x y z : solid l m (x * cos t - y * sin t) (x * sin t + y * cos t) z = cexpi (- (IZR m * t)) * solid l m x y z.
Proof.
  unfold solid.
  replace (- (RtoC (x * cos t - y * sin t) - Ci * RtoC (x * sin t + y * cos t)) / RtoC 2) with (cexpi (- t) * (- (RtoC x - Ci * RtoC y) / RtoC 2))
    by (apply C_eq; unfold cexpi; simpl; rewrite cos_neg, sin_neg; field).
  replace ((RtoC (x * cos t - y * sin t) + Ci * RtoC (x * sin t + y * cos t)) / RtoC 2) with (/ cexpi (- t) * ((RtoC x + Ci * RtoC y) / RtoC 2)).
  - rewrite tri_phase by apply cexpi_neq0. rewrite wpow_cexpi. do 2 f_equal. ring.
  - assert (/ cexpi (- t) = cexpi t) as ->.
    { assert (H1 := cexpi_opp_mul t). assert (H2 := cexpi_neq0 (- t)).
      transitivity (cexpi (- t) * cexpi t / cexpi (- t)); [rewrite H1; field; assumption|field; assumption]. }
    apply C_eq; unfold cexpi; simpl; field.
Qed.
Lemma turned_solid t (B : body) l m I : regular B -> B (fun x y z => solid l m x y z) I ->
  turned_z t B (fun x y z => solid l m x y z) (cexpi (- (IZR m * t)) * I).
Proof.
  intros RB H. unfold turned_z. apply (reg_ext B RB (fun x y z => cexpi (- (IZR m * t)) * solid l m x y z)); [intros; now rewrite solid_turn|].
  now apply (reg_scal B RB).
Qed.
Lemma body_from_int (B : body) V mass L f (I : Z -> Z -> C) : (0 <= L)%Z -> regular B -> B (fun _ _ _ => 1) (RtoC V) -> V <> 0%R ->
  (forall l m, (0 <= m <= l)%Z -> B (fun x y z => solid l m x y z) (I l m)) ->
  (forall l m, (0 <= m <= l)%Z -> f l m = RtoC (mass / V) * (RtoC (nrm l m) * I l m)) ->
  deg (Arr.reflect (fill 0 (L + 1) L f (zeros L))) = L /\ moments_of_body (Arr.reflect (fill 0 (L + 1) L f (zeros L))) mass B.
Proof.
  intros HL RB BV HV HI Hf. split; [rewrite deg_reflect; apply deg_fill; lia|].
  apply (assemble B mass V _ f RB HV BV); [now apply half_fill|].
  intros l m Hm Hl. exists (RtoC (nrm l m) * I l m). split; [|now apply Hf].
  apply (reg_scal B RB (RtoC (nrm l m)) (fun x y z => solid l m x y z)). now apply HI.
Qed.

(* ---- isosceles prisms -------------------------------------------------------------- *)
Lemma pw_opp_base x n : (0 <= n)%Z -> pw (- x) n = (if Z.even n then pw x n else - pw x n)%R.
Proof.
  intros Hn. replace (- x)%R with ((-1) * x)%R by ring. rewrite pw_mult by assumption.
  apply RtoC_inj. rewrite RtoC_mult, (pw_nonneg (-1)), <- cpow_RtoC, <- sgnC_pow, Z2Nat.id by assumption. rewrite even_sgn.
  destruct (Z.even n); [ring|]. rewrite RtoC_opp. ring.
Qed.
Lemma even_succ_neg b : Z.even (b + 1) = negb (Z.even b).
Proof. rewrite Z.even_add. destruct (Z.even b); reflexivity. Qed.
Lemma mu_iso H d y a b c : (0 <= b)%Z -> mu_tri H d (- y) y a b c =
  (if Z.even b then 2 * pw d (a + 1) * pw y (b + 1) / (IZR (b + 1) * IZR (a + b + 2)) * zval H c else 0)%R.
Proof.
  intros Hb. unfold mu_tri. rewrite pw_opp_base by lia. rewrite even_succ_neg. destruct (Z.even b); cbn [negb]; unfold Rdiv; ring.
Qed.
Definition iso_int (H d y : R) (l m : Z) : C := mono_int2 (fun a b c => if Z.even b then mu_tri H d (- y) y a b c else 0%R) l m.
Lemma iso_solid H d y l m : d <> 0%R -> (0 <= m <= l)%Z -> triangular_prism H d (- y) y (fun x y z => solid l m x y z) (iso_int H d y l m).
Proof.
  intros Hd Hm. unfold iso_int. apply (mono_solid2 _ (fun a b c => if Z.even b then mu_tri H d (- y) y a b c else 0%R)); [apply regular_tri| | |assumption].
  - intros a b c Ha Hb Hc. destruct (Z.even b) eqn:Ev; [now apply tri_mono|].
    eapply reg_val; [|now apply tri_mono]. f_equal. rewrite mu_iso by assumption. now rewrite Ev.
  - intros a b c ->. reflexivity.
Qed.
Lemma iso_volume H d y : d <> 0%R -> triangular_prism H d (- y) y (fun _ _ _ => 1) (RtoC (H * d * y)).
Proof.
  intros Hd. apply (reg_val _ _ (RtoC (mu_tri H d (- y) y 0 0 0))); [rewrite tri_volume; f_equal; field|].
  apply mono_000; [apply regular_tri|]. intros. now apply tri_mono.
Qed.
Lemma iso_entry_int mass H d t pc l m : (0 <= m <= l)%Z -> H <> 0%R -> d <> 0%R -> t <> 0%R ->
  iso_entry mass H d t pc l m = RtoC (mass / (H * d * (t * d))) * (RtoC (nrm l m) * (cexpi (- (IZR m * pc)) * iso_int H d (t * d) l m)).
Proof.
  intros Hm HH Hd Ht. unfold iso_entry, iso_int, mono_int2. destruct (half_range l m Hm) as [Hr Hr'].
  assert (Hm2 : (2 * (m / 2) <= m)%Z) by (assert (Hd' := Z.div_mod m 2 ltac:(lia)); assert (Hb' := Z.mod_pos_bound m 2 ltac:(lia)); lia).
  destruct (Z.even (l - m)) eqn:Ev.
  - unfold Cdiv. rewrite <- !zsum_scal_r, <- !zsum_scal_l. apply zsum_ext. intros k Hk.
    replace (l - m - 2 * k + 2)%Z with (l - m - 2 * k + 1 + 1)%Z by ring. rewrite exp3, nrm_split by lia.
    rewrite <- !zsum_scal_r, <- !zsum_scal_l, <- !zsum_scal_r. apply zsum_ext. intros p Hp. rewrite <- !zsum_scal_l, <- !zsum_scal_r, <- !zsum_scal_l, <- !zsum_scal_r. apply zsum_ext. intros j Hj.
    replace (Z.even (2 * j + 2 * p)) with true by (rewrite Z.even_add_mul_2, Z.even_mul; reflexivity).
    rewrite mu_iso by lia. replace (Z.even (2 * j + 2 * p)) with true by (rewrite Z.even_add_mul_2, Z.even_mul; reflexivity).
    unfold zval. rewrite even_sub2, Ev.
    replace (l - 2 * k - m)%Z with (l - m - 2 * k)%Z by ring. replace (2 * k + m + 2)%Z with (m + 2 * k + 2)%Z by ring. replace (2 * k + m)%Z with (m + 2 * k)%Z by ring.
    replace (k + m)%Z with (m + k)%Z by ring. replace (m + 2 * k - (2 * j + 2 * p) + (2 * j + 2 * p) + 2)%Z with (m + 2 * k + 2)%Z by ring.
    set (e := cexpi _). set (sg := sgnC (m + k)). set (sp := sgnC p).
    rewrite <- RtoC_inv by (repeat (apply Rmult_integral_contrapositive_currified); apply zfact_neq0).
    match goal with |- sg * RtoC ?a1 * (sp * RtoC ?a2 * RtoC ?a3 * RtoC ?a4) * (RtoC ?a5 * e) = RtoC ?b1 * (RtoC ?b2 * (e * (sg * sp * RtoC ?b3 * RtoC ?b4))) =>
      transitivity (sg * sp * e * RtoC (a1 * (a2 * (a3 * (a4 * a5)))));
       [rewrite (RtoC_mult a1), (RtoC_mult a2), (RtoC_mult a3), (RtoC_mult a4); ring|
        transitivity (sg * sp * e * RtoC (b1 * (b2 * (b3 * b4)))); [|rewrite (RtoC_mult b1), (RtoC_mult b2), (RtoC_mult b3); ring]] end.
    f_equal. f_equal. unfold factor. rewrite pw2_pred, (pw2_l l m k), (pw_add_nonneg H _ 1), pw_1 by lia.
    rewrite (pw_mult t d) by lia. rewrite (pw_add_nonneg d _ 1), (pw_add_nonneg d (2 * j + 2 * p) 1), (pw_add_nonneg t _ 1), !pw_1 by lia.
    assert (E : pw d (m + 2 * k) = (pw d (m + 2 * k - (2 * j + 2 * p)) * pw d (2 * j + 2 * p))%R) by (rewrite <- pw_add_nonneg by lia; f_equal; ring). rewrite E.
    assert (F1 := zfact_neq0 k). assert (F2 := zfact_neq0 (m + k)). assert (F3 := zfact_neq0 (l - m - 2 * k + 1)).
    assert (F4 := pw2_neq0 (m + 2 * k)). assert (F5 := pw2_neq0 (l - m - 2 * k)). assert (F6 := IZR_pos_neq0 (m + 2 * k + 2) ltac:(lia)).
    assert (F12 := IZR_pos_neq0 (2 * j + 2 * p + 1) ltac:(lia)).
    field. repeat split; assumption.
  - rewrite zsum_0; [ring|]. intros k Hk. apply zsum_0. intros p Hp. apply zsum_0. intros j Hj. unfold mu_tri.
    rewrite zval_odd by now rewrite even_sub2. rewrite Rmult_0_r.
    match goal with |- context [if ?b then 0%R else 0%R] => replace (if b then 0%R else 0%R) with 0%R by now destruct b end. ring.
Qed.
Lemma iso_body L mass H d t pc : (0 <= L)%Z -> H <> 0%R -> d <> 0%R -> t <> 0%R ->
  let q := Arr.reflect (fill 0 (L + 1) L (iso_entry mass H d t pc) (zeros L)) in
  deg q = L /\ moments_of_body q mass (turned_z pc (triangular_prism H d (- (t * d)) (t * d))).
Proof.
  intros HL HH Hd Ht q. apply (body_from_int _ (H * d * (t * d)) mass L _ (fun l m => cexpi (- (IZR m * pc)) * iso_int H d (t * d) l m)); [assumption| | | | |].
  - apply regular_turned, regular_tri.
  - unfold turned_z. now apply iso_volume.
  - repeat (apply Rmult_integral_contrapositive_currified); assumption.
  - intros l m Hm. apply turned_solid; [apply regular_tri|now apply iso_solid].
  - intros l m Hm. now apply iso_entry_int.
Qed.
Lemma tri_iso_prism_body L mass H a d pc q : (0 <= L)%Z -> tri_iso_prism L mass H a d pc = Ok q ->
  deg q = L /\ moments_of_body q mass (turned_z pc (triangular_prism H d (- a / 2) (a / 2))).
Proof.
  intros HL E. unfold tri_iso_prism in E.
  destruct (_ || _)%bool eqn:G; [discriminate|]. apply Bool.orb_false_elim in G. destruct G as [G G3].
  apply Bool.orb_false_elim in G. destruct G as [G1 G2]. apply rle_false in G1, G3. apply req_false in G2. injection E as <-.
  replace (- a / 2)%R with (- (a / (2 * d) * d))%R by (field; assumption). replace (a / 2)%R with (a / (2 * d) * d)%R by (field; assumption).
  apply iso_body; try assumption; [intros ?; lra|].
  unfold Rdiv. apply Rmult_integral_contrapositive_currified; [lra|]. apply Rinv_neq_0_compat. apply Rmult_integral_contrapositive_currified; [lra|assumption].
Qed.
Lemma tri_iso_prism2_body L mass H R_ pc ph q : (0 <= L)%Z -> tri_iso_prism2 L mass H R_ pc ph = Ok q ->
  deg q = L /\ moments_of_body q mass (turned_z pc (triangular_prism H (R_ * cos ph) (- (R_ * sin ph)) (R_ * sin ph))).
Proof.
  intros HL E. unfold tri_iso_prism2 in E.
  destruct (_ || _)%bool eqn:G; [discriminate|]. apply Bool.orb_false_elim in G. destruct G as [G G4]. apply Bool.orb_false_elim in G. destruct G as [G G3].
  apply Bool.orb_false_elim in G. destruct G as [G1 G2]. apply rle_false in G1, G2, G3. apply rlt_false in G4.
  unfold is0 in E. destruct (Req_EM_T (cos ph) 0) as [|Hc]; [discriminate|]. injection E as <-.
  replace (R_ * sin ph)%R with (tan ph * (R_ * cos ph))%R by (unfold tan; field; assumption).
  assert (Hp := PI_RGT_0). assert (Hs : (0 < sin ph)%R) by (apply sin_gt_0; lra).
  apply iso_body; try assumption; [intros ?; lra| |].
  - apply Rmult_integral_contrapositive_currified; [lra|assumption].
  - unfold tan, Rdiv. apply Rmult_integral_contrapositive_currified; [lra|now apply Rinv_neq_0_compat].
Qed.
