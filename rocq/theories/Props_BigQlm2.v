(* C48 (bigQlm.annulus): the outer moments of an annular sector, degrees 0 to 5 *)
From Verif Require Import BigSpec AnnProofs Props_Qlm Pg2MultiProofs Props_BigQlm.
From Verif Require Import Cplx.
Open Scope C_scope.

Lemma regular_standing H Ri Ro phic phih : regular (standing_sector H Ri Ro phic phih).
Proof.
  apply (regular_int3 (phic - phih) (phic + phih) (fun _ => Ri) (fun _ => Ro) (fun _ _ => Rmin 0 H) (fun _ _ => Rmax 0 H) (fun f ph r z => RtoC r * f (r * cos ph)%R (r * sin ph)%R z)).
  - intros f g u v w E. cbv beta. now rewrite E.
  - intros c f u v w. cbv beta. ring.
  - intros f g u v w. cbv beta. ring.
  - intros f u v w. cbv beta. now rewrite Cconj_mult, Cconj_RtoC.
Qed.
(* the guard *)
Lemma ann_ok L dens H r0 r1 phic phih Q : big_annulus L dens H r0 r1 phic phih = Ok Q ->
  (H <> 0 /\ 0 < r0 /\ r0 <= r1 /\ 0 < phih <= PI)%R /\
  Q = ach_finish L (map (fun '((l, m), v) => ((l, m), RtoC v * cexpi (- (IZR m * phic)))) (big_annulus_tab dens H r0 r1 phih)).
Proof.
  unfold big_annulus, req, rlt, rle. intros E.
  destruct (Req_EM_T H 0), (Rlt_dec r1 r0), (Rlt_dec r1 0), (Rlt_dec r0 0), (Rle_dec phih 0), (Rlt_dec PI phih); cbn [orb] in E; try discriminate.
  destruct (Req_EM_T r0 0); [discriminate|]. apply Ok_inj in E. split; [|now symmetry]. repeat split; lra.
Qed.
Definition good_cell (l m : Z) : bool := but 2 0 l m && but 5 3 l m.
Lemma cells dens H r0 r1 phic phih : H <> 0%R -> (0 < r0)%R -> (r0 <= r1)%R -> (0 < phih)%R ->
  forall l m, (0 <= m <= l)%Z -> (l <= 5)%Z -> good_cell l m = true ->
  tabf (map (fun '((l, m), v) => ((l, m), RtoC v * cexpi (- (IZR m * phic)))) (big_annulus_tab dens H r0 r1 phih)) l m
  = cell l m (dens * ann_val H r0 r1 phih l m) phic.
Proof.
  intros HH H0 H1 Hp. assert (Hh : (0 < Rabs H)%R) by now apply Rabs_pos_lt. assert (H2 : (0 < r1)%R) by lra.
  apply (lm_cases (fun l m => good_cell l m = true ->
    tabf (map (fun '((l, m), v) => ((l, m), RtoC v * cexpi (- (IZR m * phic)))) (big_annulus_tab dens H r0 r1 phih)) l m
    = cell l m (dens * ann_val H r0 r1 phih l m) phic)); intros G; try discriminate G; clear G.
  all: [> apply cell_00|apply cell_10|apply cell_11|apply cell_21|apply cell_22|apply cell_30|apply cell_31|apply cell_32|apply cell_33
   |apply cell_40|apply cell_41|apply cell_42|apply cell_43|apply cell_44|apply cell_50|apply cell_51|apply cell_52|apply cell_54|apply cell_55]; assumption.
Qed.
Lemma re_cell0 l v phic : RtoC (Re (cell l 0 v phic)) = cell l 0 v phic.
Proof. unfold cell. rewrite Rmult_0_l, Ropp_0, cexpi_0. apply C_eq; cbn; ring. Qed.
Lemma outer_neg rho H Ri Ro phic phih l m v : is_outer_moment rho (standing_sector H Ri Ro phic phih) l m v ->
  is_outer_moment rho (standing_sector H Ri Ro phic phih) l (- m) (sgnC m * Cconj v).
Proof.
  intros (I & HI & ->). set (B := standing_sector H Ri Ro phic phih) in *. assert (RB := regular_standing H Ri Ro phic phih).
  exists (sgnC m * Cconj I). split.
  - eapply (reg_ext B RB); [|apply (reg_scal B RB (sgnC m) _ _ (reg_conj B RB _ _ HI))]. intros x y z. cbv beta. now rewrite isolid_symm.
  - rewrite Cconj_mult, Cconj_RtoC. ring.
Qed.

(* ---- every cell except (2,0) and (5,3) is the true moment, of the sector centred on the azimuth -phic ---- *)
Theorem C48_annulus : forall L dens H r0 r1 phic phih Q, (0 <= L)%Z -> big_annulus L dens H r0 r1 phic phih = Ok Q ->
  deg Q = L /\
  (forall l m, (0 <= l <= L)%Z -> (l <= 5)%Z -> (Z.abs m <= l)%Z -> (l, Z.abs m) <> (2, 0)%Z -> (l, Z.abs m) <> (5, 3)%Z ->
     is_outer_moment dens (standing_sector H r0 r1 (- phic) phih) l m (mom Q l m)) /\
  (forall l m, (5 < l <= L)%Z -> (Z.abs m <= L)%Z -> mom Q l m = 0) /\
  corners0 Q.
Proof.
  intros L dens H r0 r1 phic phih Q HL E. destruct (ann_ok _ _ _ _ _ _ _ _ E) as [(HH & H0 & H1 & Hp & _) ->].
  assert (W := big_tabwf dens H r0 r1 phic phih). split; [apply deg_ach|]. destruct (ach_reality L _ HL W) as [RL CZ].
  split; [|split; [|exact CZ]].
  2:{ intros l m Hl Hm. now apply ach_zero. }
  assert (Pos : forall l m, (0 <= m <= l)%Z -> (l <= L)%Z -> (l <= 5)%Z -> (l, m) <> (2, 0)%Z -> (l, m) <> (5, 3)%Z ->
     is_outer_moment dens (standing_sector H r0 r1 (- phic) phih) l m
       (mom (ach_finish L (map (fun '((l, m), v) => ((l, m), RtoC v * cexpi (- (IZR m * phic)))) (big_annulus_tab dens H r0 r1 phih))) l m)).
  { intros l m Hm Hl Hl5 N1 N2. rewrite ach_entry by (assumption || lia).
    assert (G : good_cell l m = true).
    { unfold good_cell, but. destruct (Z.eqb_spec l 2), (Z.eqb_spec m 0), (Z.eqb_spec l 5), (Z.eqb_spec m 3); subst; try reflexivity; try lia; exfalso; (now apply N1) || (now apply N2). }
    destruct (Z.eqb_spec m 0) as [->|Hm0]; rewrite cells by assumption; rewrite ?re_cell0; apply sector_outer; (assumption || lra || lia). }
  intros l m Hl Hl5 Hm N1 N2. destruct (Z_le_gt_dec 0 m) as [P|P].
  - rewrite Z.abs_eq in N1, N2 by assumption. apply Pos; (assumption || lia).
  - rewrite Z.abs_neq in N1, N2 by lia. assert (K := Pos l (- m)%Z ltac:(lia) ltac:(lia) Hl5 N1 N2).
    apply outer_neg in K. rewrite Z.opp_involutive in K. rewrite <- (Z.opp_involutive m) at 2. rewrite RL; [exact K| |]; rewrite deg_ach; lia.
Qed.
(* in particular, a sector centred on the x axis gets its own moments *)
Corollary C48_annulus_on_axis : forall L dens H r0 r1 phih Q, (0 <= L)%Z -> big_annulus L dens H r0 r1 0 phih = Ok Q ->
  forall l m, (0 <= l <= L)%Z -> (l <= 5)%Z -> (Z.abs m <= l)%Z -> (l, Z.abs m) <> (2, 0)%Z -> (l, Z.abs m) <> (5, 3)%Z ->
     is_outer_moment dens (standing_sector H r0 r1 0 phih) l m (mom Q l m).
Proof. intros L dens H r0 r1 phih Q HL E. destruct (C48_annulus _ _ _ _ _ _ _ _ HL E) as (_ & K & _). rewrite Ropp_0 in K. exact K. Qed.

(* ---- the cell (2,0): |H| times the returned value is the moment ---- *)
Lemma outer_unique rho H Ri Ro phic phih l m v w : is_outer_moment rho (standing_sector H Ri Ro phic phih) l m v ->
  is_outer_moment rho (standing_sector H Ri Ro phic phih) l m w -> v = w.
Proof. intros (I & HI & ->) (J & HJ & ->). f_equal. exact (reg_unique _ (regular_standing H Ri Ro phic phih) _ _ _ HI HJ). Qed.
Lemma cell0_phase l v p q : cell l 0 v p = cell l 0 v q. Proof. unfold cell. now rewrite !Rmult_0_l. Qed.
Theorem C48_annulus_20 : forall L dens H r0 r1 phic phih Q, (2 <= L)%Z -> big_annulus L dens H r0 r1 phic phih = Ok Q ->
  is_outer_moment dens (standing_sector H r0 r1 phic phih) 2 0 (RtoC (Rabs H) * mom Q 2 0).
Proof.
  intros L dens H r0 r1 phic phih Q HL E. destruct (ann_ok _ _ _ _ _ _ _ _ E) as [(HH & H0 & H1 & Hp & _) ->].
  rewrite ach_entry by (assumption || apply big_tabwf || lia). cbn [Z.eqb].
  assert (G := cell_20 dens H r0 r1 phic phih HH (Rabs_pos_lt _ HH) H0 ltac:(lra) Hp).
  assert (K := sector_outer dens H r0 r1 (- phic) phih 2 0 HH H0 H1 ltac:(lra) ltac:(lia) ltac:(lia)).
  rewrite Ropp_involutive in K. rewrite (cell0_phase _ _ (- phic) phic), <- G in K.
  match goal with |- is_outer_moment _ _ _ _ (_ * RtoC (Re ?t)) => replace (RtoC (Re t)) with t end; [rewrite Cmult_comm; exact K|].
  match goal with |- ?t = _ => set (w := t) in * end.
  assert (F : cell 2 0 (dens * ann_val H r0 r1 phih 2 0) phic = RtoC (dens * ann_val H r0 r1 phih 2 0)) by (rewrite <- re_cell0; unfold cell; rewrite Rmult_0_l, Ropp_0, cexpi_0; f_equal; cbn; ring).
  rewrite F in G. destruct w as [a b]. assert (G2 := f_equal snd G). cbn in G2. assert (P := Rabs_pos_lt _ HH). apply C_eq; cbn; [reflexivity|]. nra.
Qed.
Lemma dd_lt h a b : (0 < a)%R -> (a < b)%R -> (dd a h < dd b h)%R.
Proof. intros H0 H1. unfold dd. apply sqrt_lt_1_alt. nra. Qed.
Lemma cell_inj l m v w p : cell l m v p = cell l m w p -> v = w.
Proof.
  unfold cell. intros E. assert (N := cexpi_neq0 (- (IZR m * p))). apply (f_equal (fun z => z / cexpi (- (IZR m * p)))) in E.
  replace (RtoC v * cexpi (- (IZR m * p)) / cexpi (- (IZR m * p))) with (RtoC v) in E by (field; exact N).
  replace (RtoC w * cexpi (- (IZR m * p)) / cexpi (- (IZR m * p))) with (RtoC w) in E by (field; exact N).
  now injection E.
Qed.
(* so the returned value is wrong unless |H| = 1 *)
Theorem C48_annulus_20_wrong : forall L dens H r0 r1 phic phih Q, (2 <= L)%Z -> big_annulus L dens H r0 r1 phic phih = Ok Q ->
  dens <> 0%R -> (r0 < r1)%R -> Rabs H <> 1%R ->
  ~ is_outer_moment dens (standing_sector H r0 r1 phic phih) 2 0 (mom Q 2 0).
Proof.
  intros L dens H r0 r1 phic phih Q HL E Hd Hr HA K. assert (K' := C48_annulus_20 _ _ _ _ _ _ _ _ HL E).
  assert (U := outer_unique _ _ _ _ _ _ _ _ _ _ K K'). destruct (ann_ok _ _ _ _ _ _ _ _ E) as [(HH & H0 & H1 & Hp & _) _].
  assert (Z : mom Q 2 0 = 0).
  { assert (N : RtoC (Rabs H - 1) <> 0) by (apply RtoC_neq0; lra).
    transitivity (RtoC (Rabs H - 1) * mom Q 2 0 / RtoC (Rabs H - 1)); [field; exact N|].
    replace (RtoC (Rabs H - 1) * mom Q 2 0) with (RtoC 0); [field; exact N|].
    rewrite RtoC_minus. transitivity (RtoC (Rabs H) * mom Q 2 0 - mom Q 2 0); [rewrite <- U; ring|ring]. }
  assert (S5 := sector_outer dens H r0 r1 (- phic) phih 2 0 HH H0 H1 ltac:(lra) ltac:(lia) ltac:(lia)). rewrite Ropp_involutive in S5.
  assert (V := outer_unique _ _ _ _ _ _ _ _ _ _ S5 K). rewrite Z in V.
  assert (V' : cell 2 0 (dens * ann_val H r0 r1 phih 2 0) (- phic) = cell 2 0 0 (- phic)) by (rewrite V; unfold cell; ring).
  apply cell_inj in V'. unfold ann_val in V'. rewrite azi_0, (par_even (2 - 0)) in V' by reflexivity. cbv [rzB rzB_20] in V'.
  assert (Hh := Rabs_pos_lt _ HH). assert (D0 := dd_pos r0 (Rabs H) ltac:(lra)). assert (D1 := dd_pos r1 (Rabs H) ltac:(lra)). assert (D := dd_lt (Rabs H) r0 r1 H0 Hr).
  set (d0 := dd r0 (Rabs H)) in *. set (d1 := dd r1 (Rabs H)) in *. assert (Nn : (0 < nrm 2 0)%R) by (rewrite nrm_20; assert (G1 := s5p); assert (G2 := sPp); apply Rdiv_lt_0_compat; lra).
  apply Rmult_integral in V'. destruct V' as [V'|V']; [contradiction|].
  assert (J : (1 / 4 * (Rabs H / d1) - 1 / 4 * (Rabs H / d0) = Rabs H * (d0 - d1) / (4 * d0 * d1))%R) by (field; lra).
  rewrite J in V'. revert V'. apply Rmult_integral_contrapositive_currified; [|lra]. apply Rmult_integral_contrapositive_currified; [lra|].
  rewrite Rmult_1_l. apply Rmult_integral_contrapositive_currified; [apply Rmult_integral_contrapositive_currified; lra|]. apply Rinv_neq_0_compat. assert (0 < d0 * d1)%R by now apply Rmult_lt_0_compat. lra.
Qed.
(* ---- the cell (5,3) is wrong whenever the sector has any l = 5, m = 3 moment to speak of ---- *)
Lemma ratio_lt h a b : (0 < h)%R -> (0 < a)%R -> (a < b)%R -> (a / dd a h < b / dd b h)%R.
Proof.
  intros Hh H0 H1. assert (D0 := dd_pos a h ltac:(lra)). assert (D1 := dd_pos b h ltac:(lra)). assert (Q0 := dd_sq a h). assert (Q1 := dd_sq b h).
  set (p := dd a h) in *. set (q := dd b h) in *. clearbody p q.
  assert (K : (a * q < b * p)%R).
  { apply Rsqr_incrst_0; [|apply Rmult_le_pos; lra|apply Rmult_le_pos; lra]. unfold Rsqr.
    replace (a * q * (a * q))%R with (a * a * (q * q))%R by ring. replace (b * p * (b * p))%R with (b * b * (p * p))%R by ring. rewrite Q0, Q1.
    assert (0 < h * h)%R by nra. assert (a * a < b * b)%R by nra. nra. }
  apply (Rmult_lt_reg_r (p * q)); [nra|]. replace (a / p * (p * q))%R with (a * q)%R by (field; lra). replace (b / q * (p * q))%R with (b * p)%R by (field; lra). exact K.
Qed.
Theorem C48_annulus_53_wrong : forall L dens H r0 r1 phic phih Q, (5 <= L)%Z -> big_annulus L dens H r0 r1 phic phih = Ok Q ->
  dens <> 0%R -> (r0 < r1)%R -> sin (3 * phih) <> 0%R ->
  ~ is_outer_moment dens (standing_sector H r0 r1 (- phic) phih) 5 3 (mom Q 5 3).
Proof.
  intros L dens H r0 r1 phic phih Q HL E Hd Hr Hs K. destruct (ann_ok _ _ _ _ _ _ _ _ E) as [(HH & H0 & H1 & Hp & _) ->].
  rewrite ach_entry in K by (assumption || apply big_tabwf || lia). cbn [Z.eqb] in K.
  assert (Hh := Rabs_pos_lt _ HH).
  assert (G := cell_53 dens H r0 r1 phic phih HH Hh H0 ltac:(lra) Hp).
  assert (S5 := sector_outer dens H r0 r1 phic phih 5 3 HH H0 H1 ltac:(lra) ltac:(lia) ltac:(lia)).
  assert (V := outer_unique _ _ _ _ _ _ _ _ _ _ S5 K). rewrite V in G.
  match type of G with ?t + ?c = _ => assert (Z : c = cell 5 3 0 phic) end.
  { transitivity (RtoC 0); [|unfold cell; ring]. match type of G with ?t + ?c = _ => transitivity (t + c - t); [ring|]; rewrite G; ring end. }
  apply cell_inj in Z. revert Z. assert (D0 := dd_pos r0 (Rabs H) ltac:(lra)). assert (D1 := dd_pos r1 (Rabs H) ltac:(lra)). assert (D := ratio_lt (Rabs H) r0 r1 Hh H0 Hr).
  assert (J : (r0 ^ 7 / dd r0 (Rabs H) ^ 7 < r1 ^ 7 / dd r1 (Rabs H) ^ 7)%R).
  { replace (r0 ^ 7 / dd r0 (Rabs H) ^ 7)%R with ((r0 / dd r0 (Rabs H)) ^ 7)%R by (field; lra). replace (r1 ^ 7 / dd r1 (Rabs H) ^ 7)%R with ((r1 / dd r1 (Rabs H)) ^ 7)%R by (field; lra). assert (0 < r0 / dd r0 (Rabs H))%R by (apply Rdiv_lt_0_compat; lra).
    set (a := (r0 / _)%R) in *. set (b := (r1 / _)%R) in *. clearbody a b. assert (M : forall n, (0 < a ^ S n < b ^ S n)%R).
    { induction n; [cbn; lra|]. change (a ^ S (S n))%R with (a * a ^ S n)%R. change (b ^ S (S n))%R with (b * b ^ S n)%R. nra. }
    apply (M 6%nat). }
  assert (N : (0 < sqrt (11 / (35 * PI)))%R) by (apply sqrt_lt_R0, Rdiv_lt_0_compat; [lra|]; assert (G2 := PI_RGT_0); lra).
  assert (0 < Rabs H ^ 3)%R by now apply pow_lt.
  set (x := (_ - _)%R). assert (x <> 0%R) by (unfold x; lra). clearbody x. set (c := sqrt _) in *. clearbody c.
  unfold Rdiv. repeat apply Rmult_integral_contrapositive_currified; try assumption; try apply Rinv_neq_0_compat; lra.
Qed.
(* ---- the azimuth: the returned moments are those of the mirror image.  For a thick sector of half angle below pi whose
   centre is not on the x axis, cell (1,1) is not that of the sector asked for ---- *)
Theorem C48_annulus_azimuth_wrong : forall L dens H r0 r1 phic phih Q, (1 <= L)%Z -> big_annulus L dens H r0 r1 phic phih = Ok Q ->
  dens <> 0%R -> (r0 < r1)%R -> (phih < PI)%R -> sin phic <> 0%R ->
  ~ is_outer_moment dens (standing_sector H r0 r1 phic phih) 1 1 (mom Q 1 1).
Proof.
  intros L dens H r0 r1 phic phih Q HL E Hd Hr Hpi Hs K.
  destruct (C48_annulus _ _ _ _ _ _ _ _ (ltac:(lia) : (0 <= L)%Z) E) as (_ & K' & _). 
  destruct (ann_ok _ _ _ _ _ _ _ _ E) as [(HH & H0 & H1 & Hp & _) _].
  assert (N1 : (1, Z.abs 1)%Z <> (2, 0)%Z) by discriminate. assert (N2 : (1, Z.abs 1)%Z <> (5, 3)%Z) by discriminate.
  specialize (K' 1%Z 1%Z ltac:(lia) ltac:(lia) ltac:(lia) N1 N2).
  assert (S5 := sector_outer dens H r0 r1 (- phic) phih 1 1 HH H0 H1 ltac:(lra) ltac:(lia) ltac:(lia)). rewrite Ropp_involutive in S5.
  assert (S' := sector_outer dens H r0 r1 phic phih 1 1 HH H0 H1 ltac:(lra) ltac:(lia) ltac:(lia)).
  assert (V := outer_unique _ _ _ _ _ _ _ _ _ _ S5 K). assert (V' := outer_unique _ _ _ _ _ _ _ _ _ _ S' K'). rewrite <- V' in V. clear S5 S' K K' V'.
  unfold cell in V. apply (f_equal snd) in V. unfold cexpi in V. cbn in V. rewrite !Rmult_1_l, !Rmult_0_l, !Rplus_0_r, Ropp_involutive, sin_neg in V.
  set (a := (dens * ann_val H r0 r1 phih 1 1)%R) in *.
  assert (a <> 0%R).
  { unfold a, ann_val. rewrite azi_m, (par_even (1 - 1)) by (reflexivity || lia || lra). cbv [rzB rzB_11]. assert (Hh := Rabs_pos_lt _ HH).
    assert (D0 := dd_pos r0 (Rabs H) ltac:(lra)). assert (D := dd_lt (Rabs H) r0 r1 H0 Hr).
    assert (Ln : (ln (r0 + dd r0 (Rabs H)) < ln (r1 + dd r1 (Rabs H)))%R) by (apply ln_increasing; lra).
    set (u := ln (r0 + _)) in *. set (w := ln (r1 + _)) in *. clearbody u w.
    assert (Nn : (0 < nrm 1 1)%R) by (rewrite nrm_11; assert (G1 := s2p); assert (G3 := s3p); assert (G2 := sPp); apply Rdiv_lt_0_compat; [|lra]; assert (0 < sqrt 2 * sqrt 3)%R by (apply Rmult_lt_0_compat; assumption); lra).
    assert (Sp : (0 < sin (1 * phih))%R) by (rewrite Rmult_1_l; apply sin_gt_0; lra).
    set (n := nrm 1 1) in *. set (s := sin (1 * phih)) in *. set (h := Rabs H) in *. clearbody n s h.
    replace (dens * (n * (1 * (-1 / 2 * (h * w) - -1 / 2 * (h * u))) * (2 * s / 1)))%R with (dens * (n * h * (u - w) * s))%R by field.
    unfold Rdiv. repeat apply Rmult_integral_contrapositive_currified; (assumption || lra). }
  apply Hs. assert (J : (a * sin phic = 0)%R) by lra. apply Rmult_integral in J. tauto.
Qed.
(* a concrete case of each *)
Example C48_annulus_case : exists Q, big_annulus 5 1 2 1 2 1 1 = Ok Q /\ sin 1 <> 0%R /\ sin (3 * 1) <> 0%R /\ Rabs 2 <> 1%R /\ (1 < PI)%R.
Proof.
  assert (G := PI2_3_2). unfold PI2 in G. assert (G4 := PI_4).
  assert (NB : ~ (2 = 0 \/ 2 < 1 \/ 2 < 0 \/ 1 < 0 \/ 1 <= 0 \/ PI < 1)%R) by (intros [N|[N|[N|[N|[N|N]]]]]; lra).
  destruct (C37_big_annulus 5 1 2 1 2 1 1 ltac:(lia)) as (_ & _ & K). destruct (K NB ltac:(lra)) as (Q & EQ & _).
  exists Q. split; [exact EQ|]. assert (S1 : (0 < sin 1)%R) by (apply sin_gt_0; lra). assert (S3 : (0 < sin (3 * 1))%R) by (apply sin_gt_0; lra).
  rewrite Rabs_right by lra. repeat split; lra.
Qed.
Print Assumptions C48_annulus.
Print Assumptions C48_annulus_20.
Print Assumptions C48_annulus_53_wrong.
Print Assumptions C48_annulus_azimuth_wrong.
