(* The analytic moments of qlm.py are volume integrals: N-gon prism, box, pyramid, ball. *)
From Verif Require Export QlmProofs4.
From Verif Require Import ClebschGordanProofs TranslationsProofs.
From Verif Require Import Cplx.
Open Scope C_scope.

Lemma root_sum (w : C) n : cpow w n = 1 -> w <> 1 -> nsum n (fun i => cpow w i) = 0.
Proof.
  intros Hw Hn.
  assert (G : forall k, nsum k (fun i => cpow w i) * (w - 1) = cpow w k - 1).
  { induction k as [|k IH]; [cbn; ring|]. cbn [nsum]. rewrite <- (Nat.add_1_r k), cpow_add.
    transitivity (nsum k (fun i => cpow w i) * (w - 1) + cpow w k * (w - 1)); [ring|]. rewrite IH. replace (cpow w 1) with w by (simpl; ring). ring. }
  specialize (G n). rewrite Hw in G. assert (Hz : w - 1 <> 0) by (intros E; apply Hn; rewrite <- (Cplus_0_r 1), <- E; ring).
  transitivity (nsum n (fun i => cpow w i) * (w - 1) / (w - 1)); [field; assumption|]. rewrite G. field. assumption.
Qed.
Lemma cexpi_eq1 t : (0 <= t < 2 * PI)%R -> cexpi t = 1 -> t = 0%R.
Proof.
  intros Ht E. assert (Hc : cos t = 1%R) by (apply (f_equal fst) in E; exact E). assert (Hs : sin t = 0%R) by (apply (f_equal snd) in E; exact E).
  destruct (Req_dec t 0) as [|Hn]; [assumption|exfalso].
  destruct (Rlt_le_dec t PI) as [Hlt|Hge].
  - assert (0 < sin t)%R by (apply sin_gt_0; lra). lra.
  - destruct (Req_dec t PI) as [->|Hp]; [rewrite cos_PI in Hc; lra|]. assert (sin t < 0)%R by (apply sin_lt_0; lra). lra.
Qed.
Lemma roots_N (N : nat) (m : Z) pc : (0 < N)%nat ->
  nsum N (fun i => cexpi (- (IZR m * (pc + 2 * PI * INR i / INR N)))) = if (m mod Z.of_nat N =? 0)%Z then RtoC (INR N) * cexpi (- (IZR m * pc)) else 0.
Proof.
  intros HN. assert (Hn : INR N <> 0%R) by (apply not_0_INR; lia). assert (Hp := PI_RGT_0).
  set (t := (2 * PI * IZR ((- m) mod Z.of_nat N) / INR N)%R).
  assert (E : forall i, cexpi (- (IZR m * (pc + 2 * PI * INR i / INR N))) = cexpi (- (IZR m * pc)) * cpow (cexpi t) i).
  { intros i. rewrite cexpi_pow. rewrite <- cexpi_plus. unfold t.
    rewrite <- (cexpi_2PI_Z (_ + INR i * _) (Z.of_nat i * ((- m) / Z.of_nat N))). f_equal.
    assert (Hd := Z.div_mod (- m) (Z.of_nat N) ltac:(lia)). apply (f_equal IZR) in Hd. rewrite opp_IZR, plus_IZR, mult_IZR, <- INR_IZR_INZ in Hd.
    rewrite mult_IZR, <- INR_IZR_INZ. replace (IZR m) with (- (- IZR m))%R by ring. rewrite Hd. field. assumption. }
  rewrite (nsum_ext N _ _ (fun i _ => E i)), nsum_scal_l.
  destruct (Z.eqb_spec (m mod Z.of_nat N) 0) as [H0|H0].
  - assert (Et : t = 0%R). { unfold t. rewrite Z.mod_opp_l_z by lia. simpl. unfold Rdiv. ring. }
    rewrite Et. rewrite (nsum_ext N _ (fun _ => 1)) by (intros; rewrite cexpi_0; apply cpow_1).
    assert (Ec : nsum N (fun _ => 1) = RtoC (INR N)). { clear. induction N; [reflexivity|]. cbn [nsum]. rewrite IHN, S_INR, RtoC_plus. reflexivity. }
    rewrite Ec. ring.
  - rewrite root_sum; [ring| |].
    + rewrite cexpi_pow.
      transitivity (cexpi 0); [|apply cexpi_0]. rewrite <- (cexpi_2PI_Z 0 ((- m) mod Z.of_nat N)). f_equal. unfold t. field. assumption.
    + intros Ew. apply cexpi_eq1 in Ew.
      * unfold t in Ew. assert (IZR ((- m) mod Z.of_nat N) = 0%R).
        { apply (f_equal (fun x => x * INR N / (2 * PI))%R) in Ew. transitivity (2 * PI * IZR (- m mod Z.of_nat N) / INR N * INR N / (2 * PI))%R; [field; split; lra|]. rewrite Ew. unfold Rdiv. ring. }
        apply eq_IZR in H. rewrite Z.mod_opp_l_nz in H by lia. assert (Hb := Z.mod_pos_bound m (Z.of_nat N) ltac:(lia)). lia.
      * assert (Hb := Z.mod_pos_bound (- m) (Z.of_nat N) ltac:(lia)).
        assert (0 <= IZR ((- m) mod Z.of_nat N))%R by (apply IZR_le; lia).
        assert (IZR ((- m) mod Z.of_nat N) < INR N)%R by (rewrite INR_IZR_INZ; apply IZR_lt; lia).
        assert (0 < INR N)%R by (apply lt_0_INR; lia). unfold t. split.
        -- apply Rmult_le_pos; [nra|]. apply Rlt_le, Rinv_0_lt_compat. assumption.
        -- apply (Rmult_lt_reg_r (INR N)); [assumption|]. unfold Rdiv. rewrite Rmult_assoc, Rinv_l, Rmult_1_r by assumption. nra.
Qed.
Lemma ngon_entry_iso mass H a pc N l m : (0 <= m <= l)%Z -> (m mod N = 0)%Z -> tan (PI / IZR N) <> 0%R ->
  ngon_entry mass H a pc N l m = iso_entry mass H (a / (2 * tan (PI / IZR N))) (tan (PI / IZR N)) pc l m.
Proof.
  intros Hm HN Ht. unfold ngon_entry, iso_entry. set (t := tan _) in *. rewrite HN. cbn [Z.eqb andb].
  destruct (half_range l m Hm) as [Hr Hr'].
  assert (Hm2 : (2 * (m / 2) <= m)%Z) by (assert (Hd' := Z.div_mod m 2 ltac:(lia)); assert (Hb' := Z.mod_pos_bound m 2 ltac:(lia)); lia).
  destruct (Z.even (l - m)) eqn:Ev; [|reflexivity].
  unfold Cdiv. rewrite <- !zsum_scal_r. apply zsum_ext. intros k Hk. cbv zeta.
  rewrite <- !zsum_scal_r, <- !zsum_scal_l, <- !zsum_scal_r. apply zsum_ext. intros p Hp.
  rewrite <- !zsum_scal_l, <- !zsum_scal_r, <- !zsum_scal_l, <- !zsum_scal_r. apply zsum_ext. intros j Hj.
  set (e := cexpi _). set (sg := sgnC (k + m)). set (sp := sgnC p). set (g := / RtoC (exp _)).
  match goal with |- sg * RtoC ?a1 * (sp * RtoC ?a2 * RtoC ?a3 * g) * (RtoC ?a4 * e) = sg * RtoC ?b1 * (sp * RtoC ?b2 * RtoC ?b3 * g) * (RtoC ?b4 * e) =>
     transitivity (sg * sp * e * g * RtoC (a1 * (a2 * (a3 * a4))));
       [rewrite (RtoC_mult a1), (RtoC_mult a2), (RtoC_mult a3); ring|
        transitivity (sg * sp * e * g * RtoC (b1 * (b2 * (b3 * b4)))); [|rewrite (RtoC_mult b1), (RtoC_mult b2), (RtoC_mult b3); ring]] end.
  f_equal. f_equal. replace (2 * j + 2 * p - 2 * k - m)%Z with (2 * j + 2 * p + - (2 * k + m))%Z by ring.
  rewrite (pw_add t), pw_opp, (pw_div a (2 * t)), (pw_mult 2 t) by (assumption || lia || (apply Rmult_integral_contrapositive_currified; lra || assumption)).
  replace (l + 2 * k + m - 1)%Z with (l - 1 + (2 * k + m))%Z by ring. rewrite (pw_add 2) by lra.
  assert (F1 := pw2_neq0 (l - 1)). assert (F2 := pw2_neq0 (2 * k + m)). assert (F3 := IZR_pos_neq0 (2 * k + m + 2) ltac:(lia)). assert (F4 := IZR_pos_neq0 (2 * j + 2 * p + 1) ltac:(lia)).
  assert (F5 := pw_neq0 t (2 * k + m) Ht).
  field. repeat split; assumption.
Qed.
Lemma tan_N_pos N : (3 <= N)%Z -> (0 < tan (PI / IZR N))%R.
Proof.
  intros HN. assert (Hp := PI_RGT_0). assert (3 <= IZR N)%R by (apply IZR_le; lia). assert (0 < / IZR N)%R by (apply Rinv_0_lt_compat; lra).
  apply tan_gt_0; [apply Rmult_lt_0_compat; assumption|].
  apply Rmult_lt_compat_l; [assumption|]. apply Rinv_lt_contravar; lra.
Qed.
Lemma ngon_body L mass H a pc N q : (0 <= L)%Z -> ngon_prism L mass H a pc N = Ok q ->
  deg q = L /\ moments_of_body q mass (regular_prism H a pc (Z.to_nat N)).
Proof.
  intros HL E. unfold ngon_prism in E.
  destruct (_ || _)%bool eqn:G; [discriminate|]. apply Bool.orb_false_elim in G. destruct G as [G G3].
  apply Bool.orb_false_elim in G. destruct G as [G1 G2]. apply rle_false in G1, G2. apply Z.leb_gt in G3.
  destruct (Z.leb_spec N 2) as [|HN]; [discriminate|]. apply Ok_inj in E. subst q.
  set (t := tan (PI / IZR N)). assert (Ht := tan_N_pos N ltac:(lia)). fold t in Ht. set (d := (a / (2 * t))%R).
  assert (Htd : (t * d = a / 2)%R) by (unfold d; field; intros ?; lra).
  assert (Hd : d <> 0%R) by (intros E; rewrite E in Htd; lra). assert (Ht0 : t <> 0%R) by (intros ?; lra). assert (HH : H <> 0%R) by (intros ?; lra).
  assert (EN : INR (Z.to_nat N) = IZR N) by (rewrite INR_IZR_INZ, Z2Nat.id by lia; reflexivity).
  assert (ET : regular_prism H a pc (Z.to_nat N) = union_of (Z.to_nat N) (fun i => turned_z (pc + 2 * PI * INR i / INR (Z.to_nat N)) (triangular_prism H d (- (t * d)) (t * d)))).
  { unfold regular_prism. rewrite EN. fold t. fold d. rewrite Htd. now replace (- a / 2)%R with (- (a / 2))%R by field. }
  rewrite ET. assert (INR (Z.to_nat N) <> 0%R) by (apply not_0_INR; lia).
  apply (body_from_int _ (INR (Z.to_nat N) * (H * d * (t * d))) mass L _
    (fun l m => nsum (Z.to_nat N) (fun i => cexpi (- (IZR m * (pc + 2 * PI * INR i / INR (Z.to_nat N)))) * iso_int H d (t * d) l m))); [assumption| | | | |].
  - apply regular_union. intros. apply regular_turned, regular_tri.
  - exists (fun _ => RtoC (H * d * (t * d))). split; [intros; unfold turned_z; now apply iso_volume|].
    generalize (H * d * (t * d))%R. intros x. clear. induction (Z.to_nat N) as [|n IH]; [cbn; f_equal; ring|]. cbn [nsum]. rewrite <- IH, S_INR, <- RtoC_plus. f_equal. ring.
  - repeat (assumption || apply Rmult_integral_contrapositive_currified).
  - intros l m Hm. exists (fun i => cexpi (- (IZR m * (pc + 2 * PI * INR i / INR (Z.to_nat N)))) * iso_int H d (t * d) l m). split; [|reflexivity].
    intros i Hi. apply turned_solid; [apply regular_tri|now apply iso_solid].
  - intros l m Hm. rewrite nsum_scal_r, roots_N, Z2Nat.id by lia. destruct (Z.eqb_spec (m mod N) 0) as [HM|HM].
    + rewrite ngon_entry_iso by assumption. fold t. fold d. rewrite iso_entry_int by assumption.
      set (e := cexpi _). set (I := iso_int _ _ _ _ _). 
      transitivity (RtoC (mass / (INR (Z.to_nat N) * (H * d * (t * d))) * INR (Z.to_nat N)) * (RtoC (nrm l m) * (e * I))); [|rewrite RtoC_mult; ring].
      do 2 f_equal. field. repeat split; assumption.
    + unfold ngon_entry. destruct (Z.eqb_spec (m mod N) 0) as [|_]; [contradiction|]. cbn [andb]. ring.
Qed.
