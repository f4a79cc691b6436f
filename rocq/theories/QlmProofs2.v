(* The analytic moments of qlm.py are volume integrals: cones and cylinders. *)
From Verif Require Export QlmProofs.
From Verif Require Import ClebschGordanProofs TranslationsProofs.
From Verif Require Import Cplx.
Open Scope C_scope.

(* ---- cone ------------------------------------------------------------------ *)
(* int_0^P dp z c * (1 - z/P)^n dz *)
Lemma cone_zint P c n : P <> 0%R -> (0 <= c)%Z -> (0 <= n)%Z ->
  is_CInt (fun z => dp (RtoC z) c * RtoC (pw (1 - z / P) n)) 0 P (RtoC (pw P (c + 1) * zfact n / zfact (c + n + 1))).
Proof.
  intros HP Hc Hn. apply (is_CInt_ext (fun z => RtoC (zfact n / pw P n) * (dp (RtoC z) c * dp (RtoC (P - z)) n))).
  { intros z. rewrite (dp_RtoC (P - z)) by assumption. replace (1 - z / P)%R with ((P - z) / P)%R by (field; assumption).
    rewrite pw_div by assumption. transitivity (dp (RtoC z) c * (RtoC (zfact n / pw P n) * RtoC (pw (P - z) n / zfact n))); [ring|].
    rewrite <- RtoC_mult. do 2 f_equal. field. split; [now apply pw_neq0|apply zfact_neq0]. }
  eapply is_CInt_val; [|apply is_CInt_scal; apply (is_CInt_beta P c n Hn)].
  destruct (Z.ltb_spec c 0); [lia|]. rewrite dp_RtoC, <- RtoC_mult by lia. f_equal.
  replace (c + n + 1)%Z with (c + 1 + n)%Z by ring. rewrite (pw_add_nonneg P (c + 1) n) by lia.
  field. split; [apply zfact_neq0|now apply pw_neq0].
Qed.
Lemma cone_mono P R_ pc ph m n c : P <> 0%R -> ph <> 0%R -> (0 <= n)%Z -> (0 <= c)%Z ->
  is_int3 (pc - ph) (pc + ph) (fun _ => 0%R) (fun _ => P) (fun _ _ => 0%R) (fun _ z => (R_ * (1 - z / P))%R)
    (fun p z r => RtoC r * (RtoC (pw r n) * cexpi (- (IZR m * p)) * dp (RtoC z) c))
    (Phi m pc ph * RtoC (pw R_ (n + 2) * pw P (c + 1) * zfact (n + 1) / zfact (c + n + 3))).
Proof.
  intros HP Hph Hn Hc.
  exists (fun p z => cexpi (- (IZR m * p)) * RtoC (pw R_ (n + 2) / IZR (n + 2)) * (dp (RtoC z) c * RtoC (pw (1 - z / P) (n + 2)))),
    (fun p => cexpi (- (IZR m * p)) * RtoC (pw R_ (n + 2) * pw P (c + 1) * zfact (n + 1) / zfact (c + n + 3))).
  split; [|split].
  - intros p z. apply (is_CInt_ext (fun r => cexpi (- (IZR m * p)) * dp (RtoC z) c * RtoC (pw r (n + 1)))).
    + intros r. rewrite pw_add_nonneg, pw_1, RtoC_mult by lia. ring.
    + eapply is_CInt_val; [|apply is_CInt_scal; apply rint; lia]. replace (n + 1 + 1)%Z with (n + 2)%Z by ring.
      rewrite pw_zero, pw_mult by lia.
      transitivity (cexpi (- (IZR m * p)) * dp (RtoC z) c * (RtoC (pw R_ (n + 2) / IZR (n + 2)) * RtoC (pw (1 - z / P) (n + 2)))); [|ring].
      rewrite <- RtoC_mult. do 2 f_equal. field. apply IZR_pos_neq0; lia.
  - intros p. eapply is_CInt_val; [|apply is_CInt_scal; apply (cone_zint P c (n + 2)); (assumption || lia)].
    rewrite <- Cmult_assoc, <- RtoC_mult. do 2 f_equal. replace (c + (n + 2) + 1)%Z with (c + n + 3)%Z by ring.
    replace (n + 2)%Z with (n + 1 + 1)%Z by ring. rewrite (zfact_succ (n + 1)) by lia. field.
    split; [apply zfact_neq0|apply IZR_pos_neq0; lia].
  - apply is_CInt_scal_r. now apply phi_int.
Qed.
Definition cone_int (P R_ pc ph : R) (l m : Z) : C :=
  zsum 0 ((l - m) / 2 + 1) (fun k => sgnC (m + k) * RtoC (/ (pw 2 (m + 2 * k) * zfact (m + k) * zfact k)) *
    (Phi m pc ph * RtoC (pw R_ (m + 2 * k + 2) * pw P (l - m - 2 * k + 1) * zfact (m + 2 * k + 1) / zfact (l + 3)))).
Lemma cone_solid P R_ pc ph l m : P <> 0%R -> ph <> 0%R -> (0 <= m <= l)%Z ->
  cone_sector P R_ pc ph (fun x y z => solid l m x y z) (cone_int P R_ pc ph l m).
Proof.
  intros HP Hph Hm. assert (RB := regular_cone P R_ pc ph).
  assert (Hd := Z.div_mod (l - m) 2 ltac:(lia)). assert (Hb := Z.mod_pos_bound (l - m) 2 ltac:(lia)).
  eapply (reg_ext _ RB); [intros x y z; symmetry; apply solid_terms; assumption|].
  apply (reg_zsum _ 0 ((l - m) / 2 + 1) (fun k x y z => dp (A_ x y) (m + k) * dp (B_ x y) k * dp (RtoC z) (l - m - 2 * k)) _ RB).
  - assert (0 <= (l - m) / 2)%Z by (apply Z.div_pos; lia). lia.
  - intros k Hk. unfold cone_sector.
    assert (G := cone_mono P R_ pc ph m (m + 2 * k) (l - m - 2 * k) HP Hph ltac:(lia) ltac:(lia)).
    replace (l - m - 2 * k + (m + 2 * k) + 3)%Z with (l + 3)%Z in G by ring.
    eapply is_int3_ext; [|apply is_int3_scal; exact G].
    intros p r z. cbv beta. rewrite polar_term by lia. unfold Rdiv at 1. rewrite RtoC_mult. ring.
Qed.
Lemma cone_volume P R_ pc ph : P <> 0%R -> ph <> 0%R ->
  cone_sector P R_ pc ph (fun _ _ _ => 1) (RtoC (P * R_ ^ 2 * ph / 3)).
Proof.
  intros HP Hph. assert (RB := regular_cone P R_ pc ph).
  apply (reg_ext _ RB (fun x y z => solid 0 0 x y z)); [intros; apply solid_00|].
  apply (reg_val _ _ (cone_int P R_ pc ph 0 0)); [|apply cone_solid; (assumption || lia)].
  unfold cone_int, Phi, np_sinc. change ((0 - 0) / 2 + 1)%Z with (0 + 1)%Z. rewrite zsum_one.
  change (0 - 0 - 2 * 0 + 1)%Z with 1%Z. change (0 + 2 * 0)%Z with 0%Z. change (0 + 0)%Z with 0%Z. change (0 + 2)%Z with 2%Z. change (0 + 1)%Z with 1%Z. change (0 + 3)%Z with 3%Z.
  destruct (Req_EM_T (0 * ph / PI) 0) as [_|E]; [|exfalso; apply E; unfold Rdiv; ring].
  rewrite (Rmult_0_l pc), Ropp_0, cexpi_0, sgnC_0. 
  rewrite !(pw_nonneg _ 2), !pw_0, pw_1 by lia. change (Z.to_nat 2) with 2%nat. rewrite zfact_0, zfact_1.
  replace (zfact 3) with 6%R by (unfold zfact; change (Z.to_nat 3) with 3%nat; change (fact 3) with 6%nat; rewrite INR_IZR_INZ; reflexivity).
  rewrite !Cmult_1_l, !Cmult_1_r, <- !RtoC_mult. f_equal. field.
Qed.
Lemma cone_entry_int mass P R_ pc ph l m : (0 <= m <= l)%Z -> P <> 0%R -> R_ <> 0%R -> ph <> 0%R ->
  cone_entry mass P R_ pc ph l m
  = RtoC (mass / (P * R_ ^ 2 * ph / 3)) * (RtoC (nrm l m) * cone_int P R_ pc ph l m).
Proof.
  intros Hm HP HR Hph. unfold cone_entry, cone_int.
  assert (Hd := Z.div_mod (l - m) 2 ltac:(lia)). assert (Hb := Z.mod_pos_bound (l - m) 2 ltac:(lia)).
  rewrite <- !zsum_scal_r, <- !zsum_scal_l. apply zsum_ext. intros k Hk. unfold Phi.
  replace (2 * k + m + 2)%Z with (m + 2 * k + 1 + 1)%Z by ring. replace (l + 4)%Z with (l + 3 + 1)%Z by ring.
  unfold Rminus. rewrite exp_plus, exp_Ropp, exp_plus, !exp_gl, nrm_split by lia.
  replace (l - 2 * k - m)%Z with (l - m - 2 * k)%Z by ring. replace (2 * k + m)%Z with (m + 2 * k)%Z by ring.
  replace (k + m)%Z with (m + k)%Z by ring. rewrite pw2_pred.
  set (e := cexpi _). set (sg := sgnC _). set (si := np_sinc _).
  match goal with |- sg * RtoC ?a * (RtoC ?b * e) = RtoC ?c * (RtoC ?d * (sg * RtoC ?f * (RtoC ?g * e * RtoC ?h))) =>
    transitivity (sg * e * RtoC (a * b)); [rewrite (RtoC_mult a b); ring|transitivity (sg * e * RtoC (c * (d * (f * (g * h))))); [|rewrite (RtoC_mult c), (RtoC_mult d), (RtoC_mult f), (RtoC_mult g); ring]] end.
  f_equal. f_equal. unfold factor. rewrite (pw_add_nonneg P _ 1), pw_1, (pw_add_nonneg R_ _ 2), (pw_nonneg R_ 2) by lia. change (Z.to_nat 2) with 2%nat.
  assert (F1 := zfact_neq0 k). assert (F2 := zfact_neq0 (m + k)). assert (F3 := zfact_neq0 (l + 3)). assert (F4 := pw2_neq0 (m + 2 * k)).
  field. repeat split; assumption.
Qed.
Lemma cone_body L mass P R_ pc ph q : (0 <= L)%Z -> cone L mass P R_ pc ph = Ok q ->
  deg q = L /\ moments_of_body q mass (cone_sector P R_ pc ph).
Proof.
  intros HL E. unfold cone in E.
  destruct (_ || _)%bool eqn:G; [discriminate|]. apply Bool.orb_false_elim in G. destruct G as [G G4].
  apply Bool.orb_false_elim in G. destruct G as [G G3]. apply Bool.orb_false_elim in G. destruct G as [G1 G2].
  apply rle_false in G1, G2, G3. apply rlt_false in G4. injection E as <-.
  split; [rewrite deg_reflect; apply deg_fill; lia|].
  assert (HF := half_fill L (cone_entry mass P R_ pc ph) HL).
  apply (assemble _ mass (P * R_ ^ 2 * ph / 3) _ (cone_entry mass P R_ pc ph)).
  - apply regular_cone.
  - assert (0 < P * R_ ^ 2 * ph)%R; [|lra]. repeat apply Rmult_lt_0_compat; lra.
  - apply cone_volume; lra.
  - assumption.
  - intros l m Hm Hl. eexists. split.
    + exact (reg_scal _ (regular_cone P R_ pc ph) (RtoC (nrm l m)) _ _ (cone_solid P R_ pc ph l m ltac:(lra) ltac:(lra) Hm)).
    + apply cone_entry_int; (assumption || lra).
Qed.

(* ---- cylinder --------------------------------------------------------------- *)
Lemma Slk0_closed H h : Slk0 H h = (pw H (2 * Z.of_nat h) / (pw 2 (2 * Z.of_nat h) * (2 * INR h + 1)))%R.
Proof.
  induction h as [|h IH].
  - cbn [Slk0]. change (2 * Z.of_nat 0)%Z with 0%Z. rewrite !pw_0. cbn. field.
  - cbn [Slk0]. rewrite IH. replace (2 * Z.of_nat (S h))%Z with (2 * Z.of_nat h + 2)%Z by lia.
    rewrite !(pw_add_nonneg _ _ 2), !(pw_nonneg _ 2) by lia. change (Z.to_nat 2) with 2%nat. rewrite S_INR.
    assert (F := pw2_neq0 (2 * Z.of_nat h)). assert (P := pos_INR h). field. repeat split; try assumption; intros ?; lra.
Qed.
Lemma Slk_closed H R_ h k : H <> 0%R -> (k <= h)%nat ->
  Slk H R_ h k = ((-1) ^ k * pw H (2 * Z.of_nat h) / pw 2 (2 * Z.of_nat h) * zfact (2 * Z.of_nat h)
     / (zfact (2 * Z.of_nat h + 1 - 2 * Z.of_nat k) * zfact (Z.of_nat k) * zfact (Z.of_nat k + 1)) * (R_ / H) ^ (2 * k))%R.
Proof.
  intros HH. induction k as [|k IH]; intros Hk.
  - cbn [Slk]. rewrite Slk0_closed. change (Z.of_nat 0) with 0%Z. change (0 + 1)%Z with 1%Z. rewrite Z.mul_0_r, Z.sub_0_r, zfact_0, zfact_1, zfact_succ by lia.
    rewrite plus_IZR, mult_IZR, <- INR_IZR_INZ. change (2 * 0)%nat with 0%nat. cbn [pow].
    assert (F := pw2_neq0 (2 * Z.of_nat h)). assert (F2 := zfact_neq0 (2 * Z.of_nat h)). assert (P := pos_INR h).
    field. repeat split; try assumption; intros ?; lra.
  - cbn [Slk]. rewrite IH by lia. clear IH.
    replace (2 * S k)%nat with (2 * k + 2)%nat by lia. rewrite pow_add. cbn [pow].
    replace (Z.of_nat (S k) + 1)%Z with (Z.of_nat k + 1 + 1)%Z by lia. replace (Z.of_nat (S k)) with (Z.of_nat k + 1)%Z by lia.
    replace (2 * Z.of_nat h + 1 - 2 * Z.of_nat k)%Z with (2 * Z.of_nat h + 1 - 2 * (Z.of_nat k + 1) + 1 + 1)%Z by ring.
    rewrite (zfact_succ (2 * Z.of_nat h + 1 - 2 * (Z.of_nat k + 1) + 1)), (zfact_succ (2 * Z.of_nat h + 1 - 2 * (Z.of_nat k + 1))), (zfact_succ (Z.of_nat k + 1)), (zfact_succ (Z.of_nat k)) by lia.
    set (F0 := zfact (2 * Z.of_nat h + 1 - 2 * (Z.of_nat k + 1))). assert (N0 : F0 <> 0%R) by apply zfact_neq0.
    repeat rewrite ?plus_IZR, ?minus_IZR, ?mult_IZR. rewrite <- !INR_IZR_INZ, !S_INR.
    assert (F1 := zfact_neq0 (Z.of_nat k)). assert (F2 := zfact_neq0 (2 * Z.of_nat h)). assert (F3 := pw2_neq0 (2 * Z.of_nat h)).
    assert (P := pos_INR k). assert (P' : (INR k + 1 <= INR h)%R) by (rewrite <- S_INR; apply le_INR; lia).
    cbv zeta. generalize ((R_ / H) ^ (2 * k))%R. intros U. generalize ((-1) ^ k)%R. intros U2. generalize (pw H (2 * Z.of_nat h)). intros U3.
    field. repeat split; try assumption; intros ?; lra.
Qed.
Definition cyl_entry (mass H R_ : R) (l m : Z) : C :=
  if ((m =? 0)%Z && Z.even l)%bool then RtoC (factor mass * sqrt (2 * IZR l + 1)) * Slk_sum H R_ (Z.to_nat (l / 2)) else 0.
Lemma cyl_loop L mass H R_ b : (1 <= b)%Z ->
  let q := zfor 1 b (fun h q => upd q (2 * h)%Z L (RtoC (factor mass * sqrt (2 * IZR (2 * h) + 1)) * Slk_sum H R_ (Z.to_nat h)))
           (upd (zeros L) 0 L (RtoC (factor mass * 1))) in
  deg q = L /\ forall i j, at_ q i j = if ((j =? L) && Z.even i && (0 <=? i) && (i <? 2 * b))%bool%Z then cyl_entry mass H R_ i 0 else 0.
Proof.
  intros Hb q. subst q. apply (zfor_ind (fun b q => deg q = L /\ forall i j, at_ q i j = if ((j =? L) && Z.even i && (0 <=? i) && (i <? 2 * b))%bool%Z then cyl_entry mass H R_ i 0 else 0)); [assumption| |].
  - split; [reflexivity|]. intros i j. rewrite upd_spec. cbn [at_ zeros].
    destruct (Z.eqb_spec j L); [|destruct (i =? 0)%Z; reflexivity]. cbn [andb].
    destruct (Z.eqb_spec i 0) as [->|Hi].
    + cbn. unfold cyl_entry, Slk_sum. cbn. rewrite Rmult_0_r, Rplus_0_l, sqrt_1. ring.
    + destruct (Z.even i) eqn:Ev; cbn [andb]; [|reflexivity].
      destruct (Z.leb_spec 0 i), (Z.ltb_spec i (2 * 1)); try reflexivity. exfalso. assert (i = 1)%Z by lia. subst. discriminate.
  - intros h q Hh [Hd Ha]. split; [exact Hd|]. intros i j. rewrite upd_spec, Ha.
    destruct (Z.eqb_spec j L); [|destruct (i =? 2 * h)%Z; reflexivity]. rewrite Bool.andb_true_r. cbn [andb].
    destruct (Z.eqb_spec i (2 * h)) as [->|Hi].
    + unfold cyl_entry. rewrite Z.even_mul. cbn [Z.even orb andb Z.eqb].
      destruct (Z.leb_spec 0 (2 * h)), (Z.ltb_spec (2 * h) (2 * (h + 1))); try lia. cbn [andb].
      do 3 f_equal. rewrite Z.mul_comm, Z.div_mul; lia.
    + destruct (Z.even i) eqn:Ev; cbn [andb]; [|reflexivity].
      apply Z.even_spec in Ev. destruct Ev as [w Ew].
      destruct (Z.leb_spec 0 i), (Z.ltb_spec i (2 * h)), (Z.ltb_spec i (2 * (h + 1))); try reflexivity; lia.
Qed.
Lemma np_sinc_int m : (m <> 0)%Z -> np_sinc (IZR m * PI / PI) = 0%R.
Proof.
  intros Hm. assert (Hp := PI_neq0). replace (IZR m * PI / PI)%R with (IZR m) by (field; assumption).
  unfold np_sinc. destruct (Req_EM_T (IZR m) 0) as [E|_]; [now apply eq_IZR in E|].
  assert (E : sin (PI * IZR m) = 0%R). { apply sin_eq_0_1. exists m. ring. } rewrite E. unfold Rdiv. ring.
Qed.
Lemma Phi_full m pc : (m <> 0)%Z -> Phi m pc PI = 0.
Proof. intros Hm. unfold Phi. rewrite np_sinc_int by assumption. rewrite Rmult_0_r. ring. Qed.
Lemma cyl_entry_int mass H R_ l m : (0 <= m <= l)%Z -> H <> 0%R -> R_ <> 0%R ->
  cyl_entry mass H R_ l m = RtoC (mass / (H * (R_ ^ 2 - 0 ^ 2) * PI)) * (RtoC (nrm l m) * annular_int H 0 R_ PI PI l m).
Proof.
  intros Hm HH HR. unfold cyl_entry. assert (Hp := PI_neq0).
  destruct (Z.eqb_spec m 0) as [->|Hm0]; cbn [andb].
  2:{ unfold annular_int. rewrite zsum_0; [ring|]. intros k Hk. rewrite Phi_full by assumption. ring. }
  unfold annular_int. rewrite Z.sub_0_r. destruct (Z.even l) eqn:Ev.
  - apply Z.even_spec in Ev. destruct Ev as [w ->]. replace (2 * w / 2)%Z with w by (rewrite Z.mul_comm, Z.div_mul; lia).
    unfold Slk_sum. replace (w + 1)%Z with (Z.of_nat (S (Z.to_nat w))) by lia. rewrite zsum_nsum.
    rewrite <- !nsum_scal_l. apply nsum_ext. intros k Hk. rewrite Slk_closed by (assumption || lia).
    rewrite Z2Nat.id by lia. unfold Phi, np_sinc. destruct (Req_EM_T (0 * PI / PI) 0) as [_|E]; [|exfalso; apply E; unfold Rdiv; ring].
    rewrite (Rmult_0_l PI), Ropp_0, cexpi_0. rewrite !Z.add_0_l. rewrite sgnC_pow, cpow_RtoC.
    rewrite !Cmult_1_r. rewrite <- !RtoC_mult. f_equal.
    unfold zval. rewrite even_sub2, Z.even_mul. cbn [Z.even orb]. rewrite nrm_split, lmfac_eq, Z.add_0_r, Z.sub_0_r by lia.
    rewrite sqrt_square by (apply Rlt_le, zfact_pos). unfold factor.
    rewrite (pw_zero (2 * Z.of_nat k + 2)) by lia. rewrite (pw_add_nonneg R_ _ 2), (pw_nonneg R_ 2) by lia.
    rewrite (pw_nonneg R_ (2 * Z.of_nat k)) by lia. replace (Z.to_nat (2 * Z.of_nat k)) with (2 * k)%nat by lia.
    replace (2 * w)%Z with (2 * Z.of_nat k + (2 * w - 2 * Z.of_nat k))%Z at 2 3 by ring.
    rewrite !(pw_add_nonneg _ (2 * Z.of_nat k)) by lia.
    rewrite (pw_nonneg H (2 * Z.of_nat k)) by lia. replace (Z.to_nat (2 * Z.of_nat k)) with (2 * k)%nat by lia.
    replace (2 * w + 1 - 2 * Z.of_nat k)%Z with (2 * w - 2 * Z.of_nat k + 1)%Z by ring.
    rewrite (pw_add_nonneg H _ 1), pw_1 by lia. rewrite (zfact_succ (Z.of_nat k)) by lia.
    rewrite !plus_IZR, !mult_IZR, <- !INR_IZR_INZ. change (Z.to_nat 2) with 2%nat.
    unfold Rdiv at 5. rewrite (Rpow_mult_distr R_ (/ H)), pow_inv.
    assert (F1 := zfact_neq0 (Z.of_nat k)). assert (F2 := zfact_neq0 (2 * w - 2 * Z.of_nat k + 1)). assert (F3 := pw2_neq0 (2 * w - 2 * Z.of_nat k)). assert (F4 := pw2_neq0 (2 * Z.of_nat k)).
    assert (F5 := pow_nonzero H (2 * k) HH). assert (P := pos_INR k).
    field. repeat split; try assumption; intros ?; lra.
  - rewrite zsum_0; [ring|]. intros k Hk. rewrite zval_odd by now rewrite even_sub2. rewrite Rmult_0_r. ring.
Qed.
Lemma moments_same q q' mass B : same q q' -> moments_of_body q mass B -> moments_of_body q' mass B.
Proof.
  intros [Hd Hs] (V & HV & BV & HI & Hc). exists V. split; [exact HV|]. split; [exact BV|]. rewrite <- Hd. split.
  - intros l m Hl Hm. destruct (HI l m Hl Hm) as (I & H1 & H2). exists I. split; [exact H1|]. rewrite <- Hs by lia. exact H2.
  - intros l m Hl Hm. rewrite <- Hd in *. rewrite <- Hs by lia. now apply Hc.
Qed.
Lemma Ok_inj {A} (a b : A) : Ok a = Ok b -> a = b. Proof. now intros [= ->]. Qed.
Lemma cylinder_same L mass H R_ q : (0 <= L)%Z -> cylinder L mass H R_ = Ok q ->
  same (Arr.reflect (fill 0 (L + 1) L (cyl_entry mass H R_) (zeros L))) q.
Proof.
  intros HL E. unfold cylinder in E. destruct (_ || _)%bool; [discriminate|]. apply Ok_inj in E.
  assert (0 <= L / 2)%Z by (apply Z.div_pos; lia). assert (Hd := Z.div_mod L 2 ltac:(lia)). assert (Hb := Z.mod_pos_bound L 2 ltac:(lia)).
  destruct (cyl_loop L mass H R_ (L / 2 + 1) ltac:(lia)) as [Ed Ea]. rewrite E in Ed, Ea. clear E.
  assert (HF := half_fill L (cyl_entry mass H R_) HL).
  assert (D : deg (fill 0 (L + 1) L (cyl_entry mass H R_) (zeros L)) = L) by (apply deg_fill; lia).
  split; [rewrite deg_reflect; congruence|]. intros l m Hl Hm. rewrite deg_reflect in *. rewrite (reflect_mom _ (cyl_entry mass H R_)) by assumption.
  rewrite D in *. unfold mom at 1. rewrite Ed, Ea.
  destruct (Z.eqb_spec m 0) as [->|Hm0].
  - rewrite Z.add_0_r, Z.eqb_refl. unfold cyl_entry. cbn [Z.eqb andb]. destruct (Z.even l); cbn [andb]; [|apply C_eq; reflexivity].
    destruct (Z.leb_spec 0 l), (Z.ltb_spec l (2 * (L / 2 + 1))); try lia. cbn [andb].
    assert (Im (Slk_sum H R_ (Z.to_nat (l / 2))) = 0%R).
    { apply Cconj_fix_real. unfold Slk_sum. rewrite nsum_conj. apply nsum_ext. intros. apply Cconj_RtoC. }
    destruct (Slk_sum H R_ (Z.to_nat (l / 2))) as [a b]. cbn in H3. subst b. apply C_eq; cbn; ring.
  - destruct (Z.eqb_spec (L + m) L); [lia|]. cbn [andb]. unfold cyl_entry.
    destruct (Z.eqb_spec m 0); [lia|]. destruct (Z.eqb_spec (- m) 0); [lia|]. cbn [andb].
    rewrite Cconj_RtoC. destruct (_ && _)%bool; [reflexivity|]. destruct (_ && _)%bool; [ring|reflexivity].
Qed.
Lemma cylinder_body L mass H R_ q : (0 <= L)%Z -> cylinder L mass H R_ = Ok q ->
  deg q = L /\ moments_of_body q mass (solid_cylinder H R_).
Proof.
  intros HL E. assert (S := cylinder_same L mass H R_ q HL E). unfold cylinder in E. destruct (_ || _)%bool eqn:G; [discriminate|]. clear E.
  apply Bool.orb_false_elim in G. destruct G as [G1 G2]. apply rle_false in G1, G2.
  assert (D : deg (fill 0 (L + 1) L (cyl_entry mass H R_) (zeros L)) = L) by (apply deg_fill; lia).
  split; [destruct S as [S _]; rewrite deg_reflect in S; congruence|]. apply (moments_same _ _ _ _ S). assert (Hp := PI_RGT_0).
  apply (assemble _ mass (H * (R_ ^ 2 - 0 ^ 2) * PI) _ (cyl_entry mass H R_)).
  - apply regular_annular.
  - assert (0 < R_ ^ 2)%R by (apply pow_lt; lra). apply Rmult_integral_contrapositive_currified; [apply Rmult_integral_contrapositive_currified|]; intros ?; lra.
  - apply annular_volume. lra.
  - now apply half_fill.
  - intros l m Hm Hl. eexists. split.
    + exact (reg_scal _ (regular_annular H 0 R_ PI PI) (RtoC (nrm l m)) _ _ (annular_solid H 0 R_ PI PI l m ltac:(lra) Hm)).
    + apply cyl_entry_int; (assumption || lra).
Qed.
