(* The analytic moments of qlm.py are volume integrals: box, pyramid, ball. *)
From Verif Require Export QlmProofs5.
From Verif Require Import ClebschGordanProofs TranslationsProofs.
From Verif Require Import Cplx.
Open Scope C_scope.

Lemma zsum_flip n (f : Z -> C) : zsum 0 (n + 1) f = zsum 0 (n + 1) (fun k => f (n - k)%Z).
Proof.
  rewrite zsum_rev. rewrite (zsum_shift n). replace (1 - (n + 1) + n)%Z with 0%Z by ring. replace (1 - 0 + n)%Z with (n + 1)%Z by ring.
  apply zsum_ext. intros k Hk. f_equal. ring.
Qed.
Lemma half_even m : (0 <= m)%Z -> Z.even m = true -> (2 * (m / 2) = m)%Z.
Proof. intros Hm Ev. apply Z.even_spec in Ev. destruct Ev as [w ->]. replace (2 * w / 2)%Z with w; [reflexivity|]. symmetry. rewrite Z.mul_comm. apply Z.div_mul. lia. Qed.
Lemma zcomb_sym n k : (0 <= k <= n)%Z -> zcomb n (n - k) = zcomb n k.
Proof. intros H. rewrite !zcomb_fact by lia. replace (n - (n - k))%Z with k by ring. f_equal. ring. Qed.
(* reversing both summation indices *)
Lemma rev_even m k (f : Z -> R) : (0 <= m)%Z -> (0 <= k)%Z -> Z.even m = true ->
  zsum 0 (m / 2 + 1) (fun p => sgnC p * RtoC (zcomb m (2 * p)) * zsum 0 (k + 1) (fun j => RtoC (zcomb k j) * RtoC (f (2 * j + 2 * p)%Z))) =
  sgnC (m / 2) * zsum 0 (m / 2 + 1) (fun p => sgnC p * RtoC (zcomb m (2 * p)) * zsum 0 (k + 1) (fun j => RtoC (zcomb k j) * RtoC (f (2 * k + m - (2 * j + 2 * p))%Z))).
Proof.
  intros Hm Hk Ev. assert (H2 := half_even m Hm Ev). rewrite zsum_flip, <- zsum_scal_l. apply zsum_ext. intros p Hp. rewrite sgnC_sub.
  replace (2 * (m / 2 - p))%Z with (m - 2 * p)%Z by lia. rewrite zcomb_sym by lia.
  rewrite (zsum_flip k), !Cmult_assoc, <- !zsum_scal_l. apply zsum_ext. intros j Hj. rewrite zcomb_sym by lia.
  replace (2 * (k - j) + (m - 2 * p))%Z with (2 * k + m - (2 * j + 2 * p))%Z by ring. ring.
Qed.

(* ---- box ------------------------------------------------------------------- *)
Definition mu_box (H a b : R) (al be c : Z) : R := (zfact al * zval a al * (zfact be * zval b be) * zval H c)%R.
Lemma zint_pw H c : (0 <= c)%Z -> is_CInt (fun z => RtoC (pw z c)) (- H / 2) (H / 2) (RtoC (zfact c * zval H c)).
Proof.
  intros Hc. apply (is_CInt_ext (fun z => RtoC (zfact c) * dp (RtoC z) c)).
  { intros z. rewrite dp_RtoC, <- RtoC_mult by assumption. f_equal. field. apply zfact_neq0. }
  rewrite RtoC_mult. apply is_CInt_scal. now apply zint.
Qed.
Lemma box_mono H a b al be c : (0 <= al)%Z -> (0 <= be)%Z -> (0 <= c)%Z -> box H a b (mono al be c) (RtoC (mu_box H a b al be c)).
Proof.
  intros Ha Hb Hc. unfold box, mono.
  exists (fun x y => RtoC (zval H c * pw x al) * RtoC (pw y be)), (fun x => RtoC (zval H c * (zfact be * zval b be)) * RtoC (pw x al)).
  split; [|split].
  - intros x y. eapply is_CInt_val; [|apply is_CInt_scal; apply zint; assumption]. rewrite <- !RtoC_mult. f_equal. ring.
  - intros x. eapply is_CInt_val; [|apply is_CInt_scal; apply zint_pw; assumption]. rewrite <- !RtoC_mult. f_equal. ring.
  - eapply is_CInt_val; [|apply is_CInt_scal; apply zint_pw; assumption]. rewrite <- !RtoC_mult. f_equal. unfold mu_box. ring.
Qed.
Lemma box_volume H a b : mu_box H a b 0 0 0 = (H * a * b)%R.
Proof. unfold mu_box, zval. change (Z.even 0) with true. cbv iota. change (0 + 1)%Z with 1%Z. rewrite !pw_1, !pw_0, zfact_0, zfact_1. field. Qed.
Lemma box_solid H a b l m : (0 <= m <= l)%Z -> box H a b (fun x y z => solid l m x y z) (mono_int2 (mu_box H a b) l m).
Proof.
  intros Hm. apply mono_solid2; [apply regular_box|intros; now apply box_mono| |assumption].
  intros al be c Hb. unfold mu_box. rewrite (zval_odd b be Hb). ring.
Qed.
Lemma rect_entry_int mass H a b pc l m : (0 <= m <= l)%Z -> H <> 0%R -> a <> 0%R -> b <> 0%R ->
  rect_entry mass H a b pc l m = RtoC (mass / (H * a * b)) * (RtoC (nrm l m) * (cexpi (- (IZR m * pc)) * mono_int2 (mu_box H a b) l m)).
Proof.
  intros Hm HH Ha Hb. unfold rect_entry, mono_int2. destruct (half_range l m Hm) as [Hr Hr'].
  assert (Hm2 : (2 * (m / 2) <= m)%Z) by (assert (Hd' := Z.div_mod m 2 ltac:(lia)); assert (Hb' := Z.mod_pos_bound m 2 ltac:(lia)); lia).
  destruct (Z.even l && Z.even m)%bool eqn:G.
  - apply andb_prop in G. destruct G as [Evl Ev]. assert (H2 := half_even m ltac:(lia) Ev).
    unfold Cdiv. rewrite <- !zsum_scal_r, <- !zsum_scal_l. apply zsum_ext. intros k Hk. cbv zeta.
    replace (l - m - 2 * k + 2)%Z with (l - m - 2 * k + 1 + 1)%Z by ring. rewrite exp3, nrm_split by lia.
    set (e := cexpi _). set (n := (2 * k + m)%Z).
    (* the sum of the code, with both halves turned the same way round *)
    assert (E : zsum 0 (m / 2 + 1) (fun p => sgnC p * RtoC (zcomb m (2 * p)) * zsum 0 (k + 1) (fun j =>
        RtoC (zcomb k j) * (RtoC (pw a (n - (2 * j + 2 * p)) * pw b (2 * j + 2 * p)) + sgnC (m / 2) * RtoC (pw b (n - (2 * j + 2 * p)) * pw a (2 * j + 2 * p))) * / RtoC (IZR (2 * j + 2 * p + 1))))
      = zsum 0 (m / 2 + 1) (fun p => sgnC p * RtoC (zcomb m (2 * p)) * zsum 0 (k + 1) (fun j =>
          RtoC (zcomb k j) * RtoC (IZR (n + 2) * (pw a (n - (2 * j + 2 * p)) * pw b (2 * j + 2 * p)) / (IZR (n - (2 * j + 2 * p) + 1) * IZR (2 * j + 2 * p + 1)))))).
    { set (g := fun i : Z => (pw b (n - i) * pw a i / IZR (i + 1))%R). set (f := fun i : Z => (pw a (n - i) * pw b i / IZR (i + 1))%R).
      transitivity (zsum 0 (m / 2 + 1) (fun p => sgnC p * RtoC (zcomb m (2 * p)) * zsum 0 (k + 1) (fun j => RtoC (zcomb k j) * RtoC (f (2 * j + 2 * p)%Z)))
        + sgnC (m / 2) * zsum 0 (m / 2 + 1) (fun p => sgnC p * RtoC (zcomb m (2 * p)) * zsum 0 (k + 1) (fun j => RtoC (zcomb k j) * RtoC (g (2 * j + 2 * p)%Z)))).
      - rewrite <- zsum_scal_l, <- zsum_plus. apply zsum_ext. intros p Hp. rewrite !Cmult_assoc, <- !zsum_scal_l, <- zsum_plus. apply zsum_ext. intros j Hj.
        unfold f, g. rewrite !RtoC_div by (apply IZR_pos_neq0; lia). unfold Cdiv. ring.
      - rewrite (rev_even m k g) by (lia || assumption). rewrite Cmult_assoc, sgnC_sq, Cmult_1_l.
        rewrite <- zsum_plus. apply zsum_ext. intros p Hp. rewrite <- !zsum_scal_l, <- zsum_plus. apply zsum_ext. intros j Hj.
        transitivity (sgnC p * RtoC (zcomb m (2 * p)) * RtoC (zcomb k j) * RtoC (f (2 * j + 2 * p)%Z + g (2 * k + m - (2 * j + 2 * p))%Z)); [rewrite RtoC_plus; ring|].
        rewrite <- !Cmult_assoc. do 4 f_equal. unfold f, g. fold n. replace (n - (n - (2 * j + 2 * p)))%Z with (2 * j + 2 * p)%Z by ring.
        assert (F1 := IZR_pos_neq0 (n - (2 * j + 2 * p) + 1) ltac:(unfold n; lia)). assert (F2 := IZR_pos_neq0 (2 * j + 2 * p + 1) ltac:(lia)).
        assert (E3 : IZR (n + 2) = (IZR (n - (2 * j + 2 * p) + 1) + IZR (2 * j + 2 * p + 1))%R) by (rewrite <- plus_IZR; f_equal; ring). rewrite E3.
        field. split; assumption. }
    unfold Cdiv in E. rewrite E. clear E.
    rewrite <- !zsum_scal_r, <- !zsum_scal_l, <- !zsum_scal_r. apply zsum_ext. intros p Hp. rewrite <- !zsum_scal_l, <- !zsum_scal_r, <- !zsum_scal_l, <- !zsum_scal_r. apply zsum_ext. intros j Hj.
    unfold mu_box, zval. rewrite !even_sub2.
    replace (Z.even (l - m)) with true by (rewrite Z.even_sub, Evl, Ev; reflexivity).
    replace (Z.even (m + 2 * k - (2 * j + 2 * p))) with true by (replace (m + 2 * k - (2 * j + 2 * p))%Z with (m - 2 * (j + p - k))%Z by ring; now rewrite even_sub2).
    replace (Z.even (2 * j + 2 * p)) with true by (rewrite Z.even_add_mul_2, Z.even_mul; reflexivity).
    replace (m + 2 * k)%Z with n by (unfold n; ring). replace (l - 2 * k - m)%Z with (l - m - 2 * k)%Z by ring.
    set (i := (2 * j + 2 * p)%Z). assert (Hi : (0 <= i <= n)%Z) by (unfold i, n; lia).
    replace (sgnC (m + k)) with (sgnC k) by (rewrite sgnC_add, (sgnC_even m) by assumption; ring).
    set (sg := sgnC k). set (sp := sgnC p).
    rewrite <- RtoC_inv by (repeat (apply Rmult_integral_contrapositive_currified); apply zfact_neq0).
    match goal with |- sg * RtoC ?a1 * (sp * RtoC ?a2 * (RtoC ?a3 * RtoC ?a4) * RtoC ?a5) * (RtoC ?a6 * e) = RtoC ?b1 * (RtoC ?b2 * (e * (sg * sp * RtoC ?b3 * RtoC ?b4))) =>
      transitivity (sg * sp * e * RtoC (a1 * (a2 * (a3 * (a4 * (a5 * a6))))));
       [rewrite (RtoC_mult a1), (RtoC_mult a2), (RtoC_mult a3), (RtoC_mult a4), (RtoC_mult a5); ring|
        transitivity (sg * sp * e * RtoC (b1 * (b2 * (b3 * b4)))); [|rewrite (RtoC_mult b1), (RtoC_mult b2), (RtoC_mult b3); ring]] end.
    f_equal. f_equal. unfold factor.
    assert (El : (pw 2 (l + 2 * k + m) = pw 2 (l - m - 2 * k) * pw 2 n * pw 2 n)%R) by (rewrite <- !pw_add_nonneg by (unfold n; lia); f_equal; unfold n; ring). rewrite El.
    assert (En : (pw 2 n = pw 2 (n - i) * pw 2 i)%R) by (rewrite <- pw_add_nonneg by lia; f_equal; ring).
    rewrite (pw_add_nonneg H _ 1), (pw_add_nonneg a _ 1), (pw_add_nonneg b _ 1), !pw_1 by lia.
    assert (Z1 : zfact (i + 1) = (IZR (i + 1) * zfact i)%R) by (rewrite zfact_rec by lia; do 2 f_equal; ring).
    assert (Z2 : zfact (n - i + 1) = (IZR (n - i + 1) * zfact (n - i))%R) by (rewrite zfact_rec by lia; do 2 f_equal; ring).
    rewrite Z1, Z2, En. 
    assert (F1 := zfact_neq0 k). assert (F2 := zfact_neq0 (m + k)). assert (F3 := zfact_neq0 (l - m - 2 * k + 1)).
    assert (F4 := pw2_neq0 (n - i)). assert (F4' := pw2_neq0 i). assert (F5 := pw2_neq0 (l - m - 2 * k)). assert (F6 := IZR_pos_neq0 (n + 2) ltac:(lia)).
    assert (F12 := IZR_pos_neq0 (i + 1) ltac:(lia)). assert (F13 := IZR_pos_neq0 (n - i + 1) ltac:(lia)). assert (F14 := zfact_neq0 i). assert (F15 := zfact_neq0 (n - i)).
    field. repeat split; assumption.
  - rewrite zsum_0; [ring|]. intros k Hk. apply zsum_0. intros p Hp. apply zsum_0. intros j Hj. unfold mu_box.
    destruct (Z.even m) eqn:Ev.
    + rewrite Bool.andb_true_r in G. rewrite (zval_odd H) by (rewrite even_sub2, Z.even_sub, G, Ev; reflexivity). rewrite Rmult_0_r. ring.
    + rewrite (zval_odd a); [rewrite Rmult_0_r, !Rmult_0_l; ring|].
      replace (m + 2 * k - (2 * j + 2 * p))%Z with (m - 2 * (j + p - k))%Z by ring. now rewrite even_sub2.
Qed.
Lemma rect_prism_body L mass H a b pc q : (0 <= L)%Z -> rect_prism L mass H a b pc = Ok q ->
  deg q = L /\ moments_of_body q mass (turned_z pc (box H a b)).
Proof.
  intros HL E. unfold rect_prism in E.
  destruct (_ || _)%bool eqn:G; [discriminate|]. apply Bool.orb_false_elim in G. destruct G as [G G3].
  apply Bool.orb_false_elim in G. destruct G as [G1 G2]. apply rle_false in G1, G2, G3. apply Ok_inj in E. subst q.
  apply (body_from_int _ (H * a * b) mass L _ (fun l m => cexpi (- (IZR m * pc)) * mono_int2 (mu_box H a b) l m)); [assumption| | | | |].
  - apply regular_turned, regular_box.
  - unfold turned_z. rewrite <- box_volume. apply mono_000; [apply regular_box|intros; now apply box_mono].
  - repeat (apply Rmult_integral_contrapositive_currified); intros ?; lra.
  - intros l m Hm. apply turned_solid; [apply regular_box|now apply box_solid].
  - intros l m Hm. apply rect_entry_int; try assumption; intros ?; lra.
Qed.

(* ---- pyramid ----------------------------------------------------------------- *)
Definition even2 (n : Z) : R := if Z.even n then 2%R else 0%R.
Definition mu_pyr (x y z : R) (a b c : Z) : R :=
  (even2 a * even2 b * (pw x (a + 1) * pw y (b + 1)) / (IZR (a + 1) * IZR (b + 1)) * (pw z (c + 1) * zfact (a + b + 2) / zfact (a + b + c + 3)))%R.
Lemma sym_int Y b : (0 <= b)%Z -> is_CInt (fun v => RtoC (pw v b)) (- Y) Y (RtoC (even2 b * pw Y (b + 1) / IZR (b + 1))).
Proof.
  intros Hb. eapply is_CInt_val; [|apply rint; assumption]. f_equal. rewrite pw_opp_base by lia. rewrite even_succ_neg. unfold even2.
  destruct (Z.even b); cbn [negb]; unfold Rdiv; ring.
Qed.
Lemma pyr_mono x y z a b c : z <> 0%R -> (0 <= a)%Z -> (0 <= b)%Z -> (0 <= c)%Z -> rect_pyramid x y z (mono a b c) (RtoC (mu_pyr x y z a b c)).
Proof.
  intros Hz Ha Hb Hc. unfold rect_pyramid, mono.
  exists (fun w u => RtoC (even2 b * pw (y * (1 - w / z)) (b + 1) / IZR (b + 1)) * dp (RtoC w) c * RtoC (pw u a)),
    (fun w => RtoC (even2 a * even2 b * (pw x (a + 1) * pw y (b + 1)) / (IZR (a + 1) * IZR (b + 1))) * (dp (RtoC w) c * RtoC (pw (1 - w / z) (a + b + 2)))).
  assert (F1 := IZR_pos_neq0 (a + 1) ltac:(lia)). assert (F2 := IZR_pos_neq0 (b + 1) ltac:(lia)).
  split; [|split].
  - intros w u. apply (is_CInt_ext (fun v => RtoC (pw u a) * dp (RtoC w) c * RtoC (pw v b))); [intros; rewrite RtoC_mult; ring|].
    replace (- y * (1 - w / z))%R with (- (y * (1 - w / z)))%R by ring.
    eapply is_CInt_val; [|apply is_CInt_scal; apply sym_int; lia]. ring.
  - intros w. replace (- x * (1 - w / z))%R with (- (x * (1 - w / z)))%R by ring.
    eapply is_CInt_val; [|apply is_CInt_scal; apply sym_int; lia].
    rewrite !pw_mult by lia. replace (a + b + 2)%Z with (a + 1 + (b + 1))%Z by ring. rewrite (pw_add_nonneg (1 - w / z) (a + 1)) by lia.
    match goal with |- RtoC ?a * ?d * RtoC ?b = RtoC ?a' * (?d * RtoC ?b') => transitivity (d * RtoC (a * b)); [rewrite (RtoC_mult a); ring|transitivity (d * RtoC (a' * b')); [|rewrite (RtoC_mult a'); ring]] end.
    do 2 f_equal. field. split; assumption.
  - eapply is_CInt_val; [|apply is_CInt_scal; apply (cone_zint z c (a + b + 2)); (assumption || lia)].
    rewrite <- RtoC_mult. f_equal. unfold mu_pyr. replace (c + (a + b + 2) + 1)%Z with (a + b + c + 3)%Z by ring.
    assert (F3 := zfact_neq0 (a + b + c + 3)). field. repeat split; assumption.
Qed.
Lemma zfact_2 : zfact 2 = 2%R.
Proof. unfold zfact; change (Z.to_nat 2) with 2%nat; change (fact 2) with 2%nat; rewrite INR_IZR_INZ; reflexivity. Qed.
Lemma pyr_volume x y z : mu_pyr x y z 0 0 0 = (4 * x * y * z / 3)%R.
Proof. unfold mu_pyr, even2. change (Z.even 0) with true. cbv iota. change (0 + 1)%Z with 1%Z. change (0 + 0 + 2)%Z with 2%Z. change (0 + 0 + 0 + 3)%Z with 3%Z. rewrite !pw_1, zfact_2, zfact_3. field. Qed.
Lemma cpow_Ci_even p : (0 <= p)%Z -> cpow Ci (Z.to_nat (2 * p)) = sgnC p.
Proof.
  intros Hp. replace (Z.to_nat (2 * p)) with (2 * Z.to_nat p)%nat by lia. rewrite <- cpow_pow.
  replace (cpow Ci 2) with (RtoC (-1)) by (apply C_eq; simpl; ring). rewrite <- sgnC_pow. f_equal. lia.
Qed.
Definition pcoef (m k p j : Z) : C := cpow Ci (Z.to_nat (p + j)) * sgnC p * RtoC (/ (zfact j * zfact (k - j)) / (zfact p * zfact (m + k - p))).
Lemma rev_pyr m k (f : Z -> R) : (0 <= m)%Z -> (0 <= k)%Z -> Z.even m = true ->
  zsum 0 (m + k + 1) (fun p => zsum 0 (k + 1) (fun j => if Z.even (p + j) then pcoef m k p j * RtoC (f (p + j)%Z) else 0)) =
  sgnC (m / 2) * zsum 0 (m + k + 1) (fun p => zsum 0 (k + 1) (fun j => if Z.even (p + j) then pcoef m k p j * RtoC (f (m + 2 * k - (p + j))%Z) else 0)).
Proof.
  intros Hm Hk Ev. assert (H2 := half_even m Hm Ev). rewrite zsum_flip, <- zsum_scal_l. apply zsum_ext. intros p Hp.
  rewrite zsum_flip, <- zsum_scal_l. apply zsum_ext. intros j Hj.
  replace (m + k - p + (k - j))%Z with (m + 2 * k - (p + j))%Z by ring.
  replace (Z.even (m + 2 * k - (p + j))) with (Z.even (p + j)).
  2:{ rewrite Z.even_sub, (Z.even_add m), Z.even_mul, Ev. destruct (Z.even (p + j)), (Z.even k); reflexivity. }
  destruct (Z.even (p + j)) eqn:Ep; [|ring].
  unfold pcoef. replace (m + k - p + (k - j))%Z with (m + 2 * k - (p + j))%Z by ring. replace (k - (k - j))%Z with j by ring. replace (m + k - (m + k - p))%Z with p by ring.
  assert (H3 := half_even (p + j) ltac:(lia) Ep). set (h := ((p + j) / 2)%Z) in *. 
  replace (Z.to_nat (m + 2 * k - (p + j))) with (Z.to_nat (2 * (m / 2 + k - h))) by lia. replace (Z.to_nat (p + j)) with (Z.to_nat (2 * h)) by lia.
  rewrite !cpow_Ci_even by lia. rewrite !sgnC_sub, !sgnC_add, (sgnC_even m) by assumption.
  assert (Es := sgnC_sq k). 
  transitivity (sgnC k * sgnC k * sgnC (m / 2) * sgnC h * sgnC p * RtoC (/ (zfact (k - j) * zfact j) / (zfact (m + k - p) * zfact p)) * RtoC (f (m + 2 * k - (p + j))%Z)); [ring|].
  rewrite Es. rewrite (Rmult_comm (zfact (k - j))), (Rmult_comm (zfact (m + k - p))). ring.
Qed.
Lemma pyramid_entry_int mass x y z l m : (0 <= m <= l)%Z -> x <> 0%R -> y <> 0%R -> z <> 0%R ->
  pyramid_entry mass x y z l m = RtoC (mass / (4 * x * y * z / 3)) * (RtoC (nrm l m) * mono_int (mu_pyr x y z) l m).
Proof.
  intros Hm Hx Hy Hz. unfold pyramid_entry, mono_int. destruct (half_range l m Hm) as [Hr Hr'].
  destruct (Z.even m) eqn:Ev.
  - assert (H2 := half_even m ltac:(lia) Ev).
    rewrite <- !zsum_scal_r, <- !zsum_scal_l. apply zsum_ext. intros k Hk. cbv zeta. set (n := (m + 2 * k)%Z).
    assert (E : zsum 0 (m + k + 1) (fun p => zsum 0 (k + 1) (fun j => if Z.even (p + j) then
         (RtoC (pw y (p + j) * pw x (n - (p + j))) + sgnC (m / 2) * RtoC (pw x (p + j) * pw y (n - (p + j)))) * (cpow Ci (Z.to_nat (p + j)) * sgnC p)
           * RtoC (exp (gammaln (n + 2) - (gammaln (j + 1) + gammaln (k - j + 1)) - (gammaln (p + 1) + gammaln (m + k - p + 1))) / IZR (p + j + 1)) else 0))
       = RtoC (zfact (n + 1)) * zsum 0 (m + k + 1) (fun p => zsum 0 (k + 1) (fun j => if Z.even (p + j) then
           pcoef m k p j * RtoC (IZR (n + 2) * (pw y (p + j) * pw x (n - (p + j))) / (IZR (p + j + 1) * IZR (n - (p + j) + 1))) else 0))).
    { set (f := fun i : Z => (pw y i * pw x (n - i) / IZR (i + 1))%R). set (g := fun i : Z => (pw x i * pw y (n - i) / IZR (i + 1))%R).
      transitivity (RtoC (zfact (n + 1)) * (zsum 0 (m + k + 1) (fun p => zsum 0 (k + 1) (fun j => if Z.even (p + j) then pcoef m k p j * RtoC (f (p + j)%Z) else 0))
        + sgnC (m / 2) * zsum 0 (m + k + 1) (fun p => zsum 0 (k + 1) (fun j => if Z.even (p + j) then pcoef m k p j * RtoC (g (p + j)%Z) else 0)))).
      - rewrite <- zsum_scal_l, <- zsum_plus, <- zsum_scal_l. apply zsum_ext. intros p Hp. rewrite <- zsum_scal_l, <- zsum_plus, <- zsum_scal_l. apply zsum_ext. intros j Hj.
        destruct (Z.even (p + j)); [|ring].
        assert (Egm : exp (gammaln (n + 2) - (gammaln (j + 1) + gammaln (k - j + 1)) - (gammaln (p + 1) + gammaln (m + k - p + 1))) = (zfact (n + 1) * (/ (zfact j * zfact (k - j)) / (zfact p * zfact (m + k - p))))%R).
        { replace (n + 2)%Z with (n + 1 + 1)%Z by ring. unfold Rminus. rewrite !exp_plus, !exp_Ropp, !exp_plus, !exp_gl. unfold Rdiv. ring. }
        rewrite Egm. unfold f, g, pcoef. set (w := (/ (zfact j * zfact (k - j)) / (zfact p * zfact (m + k - p)))%R). clearbody w. assert (F0 := IZR_pos_neq0 (p + j + 1) ltac:(lia)).
        rewrite !RtoC_div by assumption. rewrite (RtoC_mult (zfact (n + 1))). field. now apply RtoC_neq0.
      - rewrite (rev_pyr m k g) by (lia || assumption). rewrite (Cmult_assoc (sgnC (m / 2))), sgnC_sq, Cmult_1_l. f_equal.
        rewrite <- zsum_plus. apply zsum_ext. intros p Hp. rewrite <- zsum_plus. apply zsum_ext. intros j Hj. destruct (Z.even (p + j)); [|ring].
        transitivity (pcoef m k p j * RtoC (f (p + j)%Z + g (m + 2 * k - (p + j))%Z)); [rewrite RtoC_plus; ring|].
        do 2 f_equal. unfold f, g. fold n. replace (n - (n - (p + j)))%Z with (p + j)%Z by ring.
        assert (F1 := IZR_pos_neq0 (n - (p + j) + 1) ltac:(unfold n; lia)). assert (F2 := IZR_pos_neq0 (p + j + 1) ltac:(lia)).
        assert (E3 : IZR (n + 2) = (IZR (n - (p + j) + 1) + IZR (p + j + 1))%R) by (rewrite <- plus_IZR; f_equal; ring). rewrite E3.
        field. split; assumption. }
    rewrite E. clear E. rewrite nrm_split by lia.
    rewrite <- !zsum_scal_l, <- !zsum_scal_r. apply zsum_ext. intros p Hp. rewrite <- !zsum_scal_l, <- !zsum_scal_r. apply zsum_ext. intros j Hj.
    unfold coef, mu_pyr, even2. fold n. destruct (Z.even (p + j)) eqn:Ep.
    + replace (Z.even (n - (p + j))) with true.
      2:{ unfold n. rewrite Z.even_sub, (Z.even_add m), Z.even_mul, Ev, Ep. destruct (Z.even k); reflexivity. }
      unfold pcoef. set (i := (p + j)%Z) in *. assert (Hi : (0 <= i <= n)%Z) by (unfold i, n; lia).
      replace (l + 4)%Z with (l + 3 + 1)%Z by ring. rewrite exp_gl.
      replace (n - i + i + (l - m - 2 * k) + 3)%Z with (l + 3)%Z by (unfold n; ring). replace (n - i + i + 2)%Z with (n + 2)%Z by ring.
      replace (l - n)%Z with (l - m - 2 * k)%Z by (unfold n; ring).
      set (sg := sgnC (m + k)). set (sp := sgnC p). set (ci := cpow _ _).
      match goal with |- sg * RtoC ?a1 * (RtoC ?a2 * (ci * sp * RtoC ?a3 * RtoC ?a4)) * RtoC ?a5 = RtoC ?b1 * (RtoC ?b2 * (sg * sp * ci * RtoC ?b3 * RtoC ?b4)) =>
        transitivity (sg * sp * ci * RtoC (a1 * (a2 * (a3 * (a4 * a5)))));
         [rewrite (RtoC_mult a1), (RtoC_mult a2), (RtoC_mult a3), (RtoC_mult a4); ring|
          transitivity (sg * sp * ci * RtoC (b1 * (b2 * (b3 * b4)))); [|rewrite (RtoC_mult b1), (RtoC_mult b2), (RtoC_mult b3); ring]] end.
      f_equal. f_equal. unfold factor. rewrite (pw_add_nonneg x _ 1), (pw_add_nonneg y _ 1), (pw_add_nonneg z _ 1), !pw_1 by lia.
      assert (Z1 : zfact (n + 2) = (IZR (n + 2) * zfact (n + 1))%R) by (rewrite zfact_rec by lia; do 2 f_equal; ring). rewrite Z1.
      assert (F2 := zfact_neq0 (l + 3)). assert (F4 := pw2_neq0 n). assert (F5 := IZR_pos_neq0 (i + 1) ltac:(lia)). assert (F6 := IZR_pos_neq0 (n - i + 1) ltac:(lia)).
      assert (F7 := zfact_neq0 j). assert (F8 := zfact_neq0 p). assert (F9 := zfact_neq0 (k - j)). assert (F10 := zfact_neq0 (m + k - p)).
      field. repeat split; assumption.
    + unfold Rdiv. rewrite Rmult_0_r, !Rmult_0_l. ring.
  - rewrite zsum_0; [ring|]. intros k Hk. apply zsum_0. intros p Hp. apply zsum_0. intros j Hj. unfold mu_pyr, even2.
    assert (Eo : Z.even (m + 2 * k - (p + j)) = negb (Z.even (p + j))).
    { rewrite Z.even_sub, (Z.even_add m), Z.even_mul, Ev. destruct (Z.even k), (Z.even (p + j)); reflexivity. }
    rewrite Eo. destruct (Z.even (p + j)); cbn [negb]; unfold Rdiv; rewrite ?Rmult_0_r, !Rmult_0_l; ring.
Qed.
Lemma pyramid_body L mass x y z q : (0 <= L)%Z -> pyramid L mass x y z = Ok q ->
  deg q = L /\ moments_of_body q mass (rect_pyramid x y z).
Proof.
  intros HL E. unfold pyramid in E.
  destruct (_ || _)%bool eqn:G; [discriminate|]. apply Bool.orb_false_elim in G. destruct G as [G G3].
  apply Bool.orb_false_elim in G. destruct G as [G1 G2]. apply rle_false in G1, G2, G3. apply Ok_inj in E. subst q.
  assert (HV : (4 * x * y * z / 3 <> 0)%R) by (assert (0 < x * y * z)%R by (repeat apply Rmult_lt_0_compat; lra); intros ?; lra).
  apply (body_from_entry _ (mu_pyr x y z)); [assumption|apply regular_pyramid|intros; apply pyr_mono; (assumption || lra)|now rewrite pyr_volume|].
  intros l m Hm. rewrite pyr_volume. apply pyramid_entry_int; (assumption || lra).
Qed.
