(* The table of bigQlm.annulus against the integrals of AnnInt. *)
From Verif Require Export BigQlm BigSpec AnnInt.
From Verif Require Import Pg2MultiProofs.
From Verif Require Import Cplx.
Open Scope R_scope.

(* values at azimuth 0, and their integrals over r in [r0,r1], z in [0,h] *)
Definition aR (l m : Z) (r z : R) : R := Re (solid l m r 0 z).
Definition rzB (l m : Z) (h r : R) : R :=
  match l, m with
  | 0, 0 => rzB_00 h r | 1, 0 => rzB_10 h r | 1, 1 => rzB_11 h r | 2, 0 => rzB_20 h r | 2, 1 => rzB_21 h r | 2, 2 => rzB_22 h r
  | 3, 0 => rzB_30 h r | 3, 1 => rzB_31 h r | 3, 2 => rzB_32 h r | 3, 3 => rzB_33 h r
  | 4, 0 => rzB_40 h r | 4, 1 => rzB_41 h r | 4, 2 => rzB_42 h r | 4, 3 => rzB_43 h r | 4, 4 => rzB_44 h r
  | 5, 0 => rzB_50 h r | 5, 1 => rzB_51 h r | 5, 2 => rzB_52 h r | 5, 3 => rzB_53 h r | 5, 4 => rzB_54 h r | 5, 5 => rzB_55 h r
  | _, _ => 0%R
  end%Z.
Lemma rz_ext h r0 r1 (f g : R -> R -> R) v : (forall r z, f r z = g r z) -> rz_int h r0 r1 f v -> rz_int h r0 r1 g v.
Proof. intros E (k & H1 & H2). exists k. split; [|exact H2]. intros r. apply (is_RInt_ext (fun z => r * f r z)); [intros; now rewrite E|apply H1]. Qed.
Ltac rz_one S I := apply (rz_ext _ _ _ _ _ _ (fun r z => ltac:(unfold aR; rewrite S; cbn [Re RtoC fst]; reflexivity))); apply I; assumption.
Lemma rz_all h r0 r1 : 0 < h -> 0 < r0 -> r0 <= r1 -> forall l m, (0 <= m <= l)%Z -> (l <= 5)%Z ->
  rz_int h r0 r1 (fun r z => aR l m r z / dd r z ^ Z.to_nat (2 * l + 1)) (rzB l m h r1 - rzB l m h r0).
Proof.
  intros Hh H0 H1. apply lm_cases.
  - eapply rz_ext; [|apply rz_00; assumption]. intros r z. unfold aR. rewrite sol_00. reflexivity.
  - eapply rz_ext; [|apply rz_10; assumption]. intros r z. unfold aR. rewrite sol_10. reflexivity.
  - eapply rz_ext; [|apply rz_11; assumption]. intros r z. unfold aR. rewrite sol_11. reflexivity.
  - eapply rz_ext; [|apply rz_20; assumption]. intros r z. unfold aR. rewrite sol_20. reflexivity.
  - eapply rz_ext; [|apply rz_21; assumption]. intros r z. unfold aR. rewrite sol_21. reflexivity.
  - eapply rz_ext; [|apply rz_22; assumption]. intros r z. unfold aR. rewrite sol_22. reflexivity.
  - eapply rz_ext; [|apply rz_30; assumption]. intros r z. unfold aR. rewrite sol_30. reflexivity.
  - eapply rz_ext; [|apply rz_31; assumption]. intros r z. unfold aR. rewrite sol_31. reflexivity.
  - eapply rz_ext; [|apply rz_32; assumption]. intros r z. unfold aR. rewrite sol_32. reflexivity.
  - eapply rz_ext; [|apply rz_33; assumption]. intros r z. unfold aR. rewrite sol_33. reflexivity.
  - eapply rz_ext; [|apply rz_40; assumption]. intros r z. unfold aR. rewrite sol_40. reflexivity.
  - eapply rz_ext; [|apply rz_41; assumption]. intros r z. unfold aR. rewrite sol_41. reflexivity.
  - eapply rz_ext; [|apply rz_42; assumption]. intros r z. unfold aR. rewrite sol_42. reflexivity.
  - eapply rz_ext; [|apply rz_43; assumption]. intros r z. unfold aR. rewrite sol_43. reflexivity.
  - eapply rz_ext; [|apply rz_44; assumption]. intros r z. unfold aR. rewrite sol_44. reflexivity.
  - eapply rz_ext; [|apply rz_50; assumption]. intros r z. unfold aR. rewrite sol_50. reflexivity.
  - eapply rz_ext; [|apply rz_51; assumption]. intros r z. unfold aR. rewrite sol_51. reflexivity.
  - eapply rz_ext; [|apply rz_52; assumption]. intros r z. unfold aR. rewrite sol_52. reflexivity.
  - eapply rz_ext; [|apply rz_53; assumption]. intros r z. unfold aR. rewrite sol_53. reflexivity.
  - eapply rz_ext; [|apply rz_54; assumption]. intros r z. unfold aR. rewrite sol_54. reflexivity.
  - eapply rz_ext; [|apply rz_55; assumption]. intros r z. unfold aR. rewrite sol_55. reflexivity.
Qed.

(* the solid harmonic at azimuth 0 is real, and of parity (-1)^(l-m) in z *)
Lemma solid_az0 l m r z : (0 <= m <= l)%Z -> solid l m r 0 z = RtoC (aR l m r z).
Proof.
  intros Hm. apply C_eq; [reflexivity|]. cbn [RtoC snd]. change (snd (solid l m r 0 z)) with (Im (solid l m r 0 z)).
  apply Cconj_fix_real. rewrite solid_terms, A_0, B_0 by assumption. rewrite zsum_conj. apply zsum_ext. intros k Hk.
  rewrite !Cconj_mult. rewrite !dp_RtoC, !Cconj_RtoC; [reflexivity| | |].
  all: assert (Hd := Z.div_mod (l - m) 2 ltac:(lia)); assert (Hb := Z.mod_pos_bound (l - m) 2 ltac:(lia)); lia.
Qed.
Definition par (n : Z) (H : R) : R := if Z.even n then 1 else if rlt 0 H then 1 else -1.
Lemma aR_par l m r z : (0 <= m <= l)%Z -> aR l m r (- z) = (if Z.even (l - m) then 1 else -1) * aR l m r z.
Proof.
  intros Hm. unfold aR. rewrite !solid_terms by assumption.
  transitivity (Re ((if Z.even (l - m) then RtoC 1 else RtoC (-1)) * zsum 0 ((l - m) / 2 + 1) (fun k => dp (A_ r 0) (m + k) * dp (B_ r 0) k * dp (RtoC z) (l - m - 2 * k)))%C).
  - f_equal. rewrite <- zsum_scal_l. apply zsum_ext. intros k Hk. rewrite RtoC_opp, dp_opp. unfold sgnC. rewrite Z.even_sub, Z.even_mul. cbn [Z.even orb].
    destruct (Z.even (l - m)); cbn [eqb]; try ring.
  - generalize (zsum 0 ((l - m) / 2 + 1) (fun k => dp (A_ r 0) (m + k) * dp (B_ r 0) k * dp (RtoC z) (l - m - 2 * k))%C). intros w.
    destruct (Z.even (l - m)); unfold Cmult, Re, RtoC; cbn [fst snd]; match goal with |- @eq _ ?x ?y => change (@eq R x y) end; ring.
Qed.
Lemma dd_par r z : dd r (- z) = dd r z. Proof. unfold dd. f_equal. ring. Qed.

(* z between 0 and H, either sign *)
Lemma rz_signed H r0 r1 l m : H <> 0 -> 0 < r0 -> r0 <= r1 -> (0 <= m <= l)%Z -> (l <= 5)%Z ->
  exists g : R -> R, (forall r, is_RInt (fun z => r * (aR l m r z / dd r z ^ Z.to_nat (2 * l + 1))) (Rmin 0 H) (Rmax 0 H) (g r)) /\
    is_RInt g r0 r1 (par (l - m) H * (rzB l m (Rabs H) r1 - rzB l m (Rabs H) r0)).
Proof.
  intros HH H0 H1 Hm Hl. destruct (rz_all (Rabs H) r0 r1 (Rabs_pos_lt _ HH) H0 H1 l m Hm Hl) as (g & G1 & G2).
  unfold par, rlt. destruct (Rlt_dec 0 H) as [P|P].
  - rewrite (Rabs_right H) in * by lra. exists g. rewrite Rmin_left, Rmax_right by lra. split; [exact G1|].
    destruct (Z.even (l - m)); rewrite Rmult_1_l; exact G2.
  - rewrite (Rabs_left H) in * by lra. set (s := if Z.even (l - m) then 1 else -1).
    exists (fun r => s * g r). rewrite Rmin_right, Rmax_left by lra. split.
    + intros r. set (F := fun z => r * (aR l m r z / dd r z ^ Z.to_nat (2 * l + 1))).
      assert (G : is_RInt F (- 0) (- H) (g r)) by (rewrite Ropp_0; apply G1).
      assert (K1 := is_RInt_comp_opp F 0 H (g r) G). assert (K2 := is_RInt_swap (fun y : R => opp (F (- y))) H 0 (g r) K1).
      assert (K3 := is_RInt_scal (fun y : R => opp (F (- y))) H 0 (- s) _ K2).
      replace (s * g r) with (scal (- s) (opp (g r)) : R) by (unfold scal, opp; cbn; unfold mult; cbn; ring).
      apply (is_RInt_ext (fun y : R => scal (- s) (opp (F (- y))))); [|exact K3]. intros z _. unfold scal, opp; cbn; unfold mult; cbn.
      unfold F. rewrite aR_par, dd_par by assumption. fold s. assert (s * s = 1) by (unfold s; destruct (Z.even (l - m)); ring).
      match goal with |- @eq _ ?x ?y => change (@eq R x y) end. unfold Rdiv. ring [H2].
    + apply (is_RInt_scal g r0 r1 s _ G2).
Qed.

(* the outer harmonic in cylindrical coordinates *)
Lemma isolid_cyl l m r ph z : (0 <= m <= l)%Z -> r <> 0 ->
  isolid l m (r * cos ph, r * sin ph, z) = (RtoC (nrm l m) * (cexpi (IZR m * ph) * RtoC (aR l m r z / dd r z ^ Z.to_nat (2 * l + 1))))%C.
Proof.
  intros Hm Hr. unfold isolid, rsolid.
  assert (E : vnorm (r * cos ph, r * sin ph, z) = dd r z).
  { unfold vnorm, dd. f_equal. assert (G := sin2_cos2 ph). unfold Rsqr in G. transitivity (r * r * (sin ph * sin ph + cos ph * cos ph) + z * z); [ring|]. rewrite G. ring. }
  rewrite E. replace (r * cos ph) with (r * cos ph - 0 * sin ph) by ring. replace (r * sin ph) with (r * sin ph + 0 * cos ph) by ring.
  rewrite solid_turn, solid_az0 by assumption. rewrite !Cconj_mult, !Cconj_RtoC, cexpi_conj, Ropp_involutive.
  unfold Rdiv. rewrite RtoC_mult. unfold Cdiv.
  assert (K : RtoC (/ dd r z ^ Z.to_nat (2 * l + 1)) = (/ RtoC (dd r z ^ Z.to_nat (2 * l + 1)))%C) by (apply RtoC_inv, pow_nonzero, Rgt_not_eq, dd_pos, Hr).
  rewrite K. ring.
Qed.
Lemma is_CInt_real (f : R -> R) a b v : is_RInt f a b v -> is_CInt (fun t => RtoC (f t)) a b (RtoC v).
Proof. intros H. split; cbn; [exact H|]. apply (is_CInt_0 a b). Qed.
Lemma sector_int H r0 r1 phic phih l m : H <> 0 -> 0 < r0 -> r0 <= r1 -> phih <> 0 -> (0 <= m <= l)%Z -> (l <= 5)%Z ->
  standing_sector H r0 r1 phic phih (fun x y z => isolid l m (x, y, z))
    (RtoC (nrm l m) * (RtoC (par (l - m) H * (rzB l m (Rabs H) r1 - rzB l m (Rabs H) r0)) * Cconj (Phi m phic phih)))%C.
Proof.
  intros HH H0 H1 Hp Hm Hl. destruct (rz_signed H r0 r1 l m HH H0 H1 Hm Hl) as (g & G1 & G2).
  set (v := par (l - m) H * (rzB l m (Rabs H) r1 - rzB l m (Rabs H) r0)) in *.
  exists (fun ph r => (RtoC (nrm l m) * cexpi (IZR m * ph) * RtoC (g r))%C), (fun ph => (RtoC (nrm l m) * cexpi (IZR m * ph) * RtoC v)%C).
  split; [|split].
  - intros ph r. apply (is_CInt_ext (fun z => (RtoC (nrm l m) * cexpi (IZR m * ph) * RtoC (r * (aR l m r z / dd r z ^ Z.to_nat (2 * l + 1))))%C)).
    + intros z. destruct (Req_dec r 0) as [->|Hr]; [rewrite (Rmult_0_l (_ / _)); ring|]. rewrite isolid_cyl by assumption. rewrite RtoC_mult. ring.
    + apply is_CInt_scal. apply (is_CInt_real _ _ _ _ (G1 r)).
  - intros ph. apply is_CInt_scal, is_CInt_real, G2.
  - apply (is_CInt_ext (fun ph => (RtoC (nrm l m) * RtoC v * Cconj (cexpi (- (IZR m * ph))))%C)).
    + intros ph. rewrite cexpi_conj, Ropp_involutive. ring.
    + rewrite Cmult_assoc. apply is_CInt_scal, is_CInt_conj, phi_int, Hp.
Qed.

(* the azimuthal factor *)
Definition azi (m : Z) (phih : R) : R := 2 * phih * np_sinc (IZR m * phih / PI).
Lemma azi_0 phih : azi 0 phih = 2 * phih.
Proof. unfold azi, np_sinc. destruct (Req_EM_T (0 * phih / PI) 0) as [_|E]; [ring|]. exfalso. apply E. unfold Rdiv. ring. Qed.
Lemma azi_m m phih : (m <> 0)%Z -> phih <> 0 -> azi m phih = 2 * sin (IZR m * phih) / IZR m.
Proof.
  intros Hm Hp. assert (HP := PI_neq0). assert (H' : IZR m <> 0) by now apply not_0_IZR. unfold azi, np_sinc.
  destruct (Req_EM_T (IZR m * phih / PI) 0) as [E|_].
  - exfalso. apply Rmult_integral in E. destruct E as [E|E]; [|now apply Rinv_neq_0_compat in E]. apply Rmult_integral in E. tauto.
  - replace (PI * (IZR m * phih / PI)) with (IZR m * phih) by (field; assumption). field. auto.
Qed.
Definition cell (l m : Z) (v : R) (phic : R) : C := (RtoC v * cexpi (- (IZR m * phic)))%C.
Definition ann_val (H r0 r1 phih : R) (l m : Z) : R := nrm l m * (par (l - m) H * (rzB l m (Rabs H) r1 - rzB l m (Rabs H) r0)) * azi m phih.
Lemma sector_outer dens H r0 r1 phic phih l m : H <> 0 -> 0 < r0 -> r0 <= r1 -> phih <> 0 -> (0 <= m <= l)%Z -> (l <= 5)%Z ->
  is_outer_moment dens (standing_sector H r0 r1 (- phic) phih) l m (cell l m (dens * ann_val H r0 r1 phih l m) phic).
Proof.
  intros HH H0 H1 Hp Hm Hl. eexists. split; [apply sector_int; assumption|]. unfold cell, ann_val, Phi. fold (azi m phih).
  rewrite Cconj_mult, Cconj_RtoC, cexpi_conj, !RtoC_mult. replace (- - (IZR m * - phic)) with (- (IZR m * phic)) by ring. ring.
Qed.
Definition ann_tab (dens H r0 r1 phic phih : R) : list (Z * Z * C) :=
  map (fun '((l, m), v) => ((l, m), (RtoC v * cexpi (- (IZR m * phic)))%C)) (big_annulus_tab dens H r0 r1 phih).
Ltac ann_open := cbv [ann_tab big_annulus_tab map tabf fold_left Z.eqb Pos.eqb andb]; cbv zeta; unfold cell; f_equal; f_equal; unfold ann_val.
Lemma sqd1 H r : sqrt (H ^ 2 + r ^ 2) = dd r (Rabs H).
Proof. unfold dd. f_equal. rewrite <- (pow2_abs H). ring. Qed.
Lemma sign_par H : H <> 0 -> np_sign H = par 1 H.
Proof. intros HH. unfold np_sign, par. cbn [Z.even]. unfold rlt. destruct (Rlt_dec 0 H); [reflexivity|]. destruct (Rlt_dec H 0); lra. Qed.
Lemma par_even n H : Z.even n = true -> par n H = 1. Proof. unfold par. now intros ->. Qed.
Lemma par_odd n H : Z.even n = false -> par n H = par 1 H. Proof. unfold par. now intros ->. Qed.
Lemma dd_rpos r h : 0 < r -> 0 < r + dd r h. Proof. intros H. assert (G := dd_pos r h ltac:(lra)). lra. Qed.
Ltac ann_cell :=
  unfold cell; f_equal; f_equal; unfold ann_val; rw_nrm;
  first [rewrite azi_0|rewrite azi_m by (lia || lra)];
  first [rewrite (par_even (_ - _)) by reflexivity|rewrite (par_odd (_ - _)) by reflexivity];
  cbv [rzB rzB_00 rzB_10 rzB_11 rzB_20 rzB_21 rzB_22 rzB_30 rzB_31 rzB_32 rzB_33 rzB_40 rzB_41 rzB_42 rzB_43 rzB_44 rzB_50 rzB_51 rzB_52 rzB_53 rzB_54 rzB_55].
Ltac ann_lns := rewrite ?ln_div, ?ln_mult by (assumption || lra || (apply Rmult_lt_0_compat; (assumption || lra))).
Ltac ann_tac := cbv [big_annulus_tab map tabf fold_left Z.eqb Pos.eqb andb]; cbv zeta; ann_cell; rewrite ?sqd1, ?sign_par by assumption; rewrite ?Rmult_1_l;
  match goal with Hh : 0 < Rabs ?H, H0 : 0 < ?r0, H1 : 0 < ?r1 |- _ =>
    let P0 := fresh in let Q0 := fresh in let U0 := fresh in let V0 := fresh in let P1 := fresh in let Q1 := fresh in let U1 := fresh in let V1 := fresh in
    let h := fresh "h" in let d0 := fresh "d0" in let d1 := fresh "d1" in let sg := fresh "sg" in
    assert (P0 := dd_pos r0 (Rabs H) ltac:(lra)); assert (Q0 := dd_sq r0 (Rabs H)); assert (U0 := dd_zpos r0 (Rabs H) ltac:(lra)); assert (V0 := dd_rpos r0 (Rabs H) H0);
    assert (P1 := dd_pos r1 (Rabs H) ltac:(lra)); assert (Q1 := dd_sq r1 (Rabs H)); assert (U1 := dd_zpos r1 (Rabs H) ltac:(lra)); assert (V1 := dd_rpos r1 (Rabs H) H1);
    set (d0 := dd r0 (Rabs H)) in *; set (d1 := dd r1 (Rabs H)) in *; clearbody d0 d1;
    set (h := Rabs H) in *; clearbody h; set (sg := par 1 H) in *; clearbody sg; ann_lns; sqsplit;
    field [s2s s3s s5s s7s s11s sPs Q0 Q1]; repeat split; first [ne0 | lra]
  end.
Section Cells.
  Variables dens H r0 r1 phic phih : R.
  Hypotheses (HH : H <> 0) (Hh : 0 < Rabs H) (H0 : 0 < r0) (H1 : 0 < r1) (Hp : 0 < phih).
  Notation T := (tabf (map (fun '((l, m), v) => ((l, m), (RtoC v * cexpi (- (IZR m * phic)))%C)) (big_annulus_tab dens H r0 r1 phih))).
  Notation V l m := (cell l m (dens * ann_val H r0 r1 phih l m) phic).
  Lemma cell_00 : T 0%Z 0%Z = V 0%Z 0%Z. Proof using HH Hh H0 H1 Hp. ann_tac. Qed.
  Lemma cell_10 : T 1%Z 0%Z = V 1%Z 0%Z. Proof using HH Hh H0 H1 Hp. ann_tac. Qed.
  Lemma cell_11 : T 1%Z 1%Z = V 1%Z 1%Z. Proof using HH Hh H0 H1 Hp. ann_tac. Qed.
  Lemma cell_21 : T 2%Z 1%Z = V 2%Z 1%Z. Proof using HH Hh H0 H1 Hp. ann_tac. Qed.
  Lemma cell_22 : T 2%Z 2%Z = V 2%Z 2%Z. Proof using HH Hh H0 H1 Hp. ann_tac. Qed.
  Lemma cell_30 : T 3%Z 0%Z = V 3%Z 0%Z. Proof using HH Hh H0 H1 Hp. ann_tac. Qed.
  Lemma cell_31 : T 3%Z 1%Z = V 3%Z 1%Z. Proof using HH Hh H0 H1 Hp. ann_tac. Qed.
  Lemma cell_32 : T 3%Z 2%Z = V 3%Z 2%Z. Proof using HH Hh H0 H1 Hp. ann_tac. Qed.
  Lemma cell_33 : T 3%Z 3%Z = V 3%Z 3%Z. Proof using HH Hh H0 H1 Hp. ann_tac. Qed.
  Lemma cell_40 : T 4%Z 0%Z = V 4%Z 0%Z. Proof using HH Hh H0 H1 Hp. ann_tac. Qed.
  Lemma cell_41 : T 4%Z 1%Z = V 4%Z 1%Z. Proof using HH Hh H0 H1 Hp. ann_tac. Qed.
  Lemma cell_42 : T 4%Z 2%Z = V 4%Z 2%Z. Proof using HH Hh H0 H1 Hp. ann_tac. Qed.
  Lemma cell_43 : T 4%Z 3%Z = V 4%Z 3%Z. Proof using HH Hh H0 H1 Hp. ann_tac. Qed.
  Lemma cell_44 : T 4%Z 4%Z = V 4%Z 4%Z. Proof using HH Hh H0 H1 Hp. ann_tac. Qed.
  Lemma cell_50 : T 5%Z 0%Z = V 5%Z 0%Z. Proof using HH Hh H0 H1 Hp. ann_tac. Qed.
  Lemma cell_51 : T 5%Z 1%Z = V 5%Z 1%Z. Proof using HH Hh H0 H1 Hp. ann_tac. Qed.
  Lemma cell_52 : T 5%Z 2%Z = V 5%Z 2%Z. Proof using HH Hh H0 H1 Hp. ann_tac. Qed.
  Lemma cell_54 : T 5%Z 4%Z = V 5%Z 4%Z. Proof using HH Hh H0 H1 Hp. ann_tac. Qed.
  Lemma cell_55 : T 5%Z 5%Z = V 5%Z 5%Z. Proof using HH Hh H0 H1 Hp. ann_tac. Qed.
  Lemma cell_20 : (T 2%Z 0%Z * RtoC (Rabs H))%C = V 2%Z 0%Z.
  Proof using HH Hh H0 H1 Hp. 
    match goal with |- ?t = _ => transitivity (cell 2 0 (Rabs H * (dens * sqrt (5 / (4 * PI)) * phih * (1 / sqrt (H ^ 2 + r1 ^ 2) - 1 / sqrt (H ^ 2 + r0 ^ 2)))) phic) end.
    - cbv [big_annulus_tab map tabf fold_left Z.eqb Pos.eqb andb]; cbv zeta. unfold cell. rewrite (RtoC_mult (Rabs H)). ring.
    - ann_tac.
  Qed.
  Lemma cell_53 : (T 5%Z 3%Z + cell 5 3 (dens * sqrt (11 / (35 * PI)) / (16 * Rabs H ^ 3) * (r1 ^ 7 / dd r1 (Rabs H) ^ 7 - r0 ^ 7 / dd r0 (Rabs H) ^ 7) * sin (3 * phih) / 3) phic)%C = V 5%Z 3%Z.
  Proof using HH Hh H0 H1 Hp.
    match goal with |- (?t + _ = _)%C => transitivity (cell 5 3 (dens * sqrt (11 / (35 * PI)) / (16 * Rabs H ^ 3) * (r1 ^ 5 * (7 * Rabs H ^ 2 + r1 ^ 2) / sqrt (H ^ 2 + r1 ^ 2) ^ 7 - r0 ^ 5 * (7 * Rabs H ^ 2 + r0 ^ 2) / sqrt (H ^ 2 + r0 ^ 2) ^ 7) * sin (3 * phih) / 3
        + dens * sqrt (11 / (35 * PI)) / (16 * Rabs H ^ 3) * (r1 ^ 7 / dd r1 (Rabs H) ^ 7 - r0 ^ 7 / dd r0 (Rabs H) ^ 7) * sin (3 * phih) / 3) phic) end.
    - cbv [big_annulus_tab map tabf fold_left Z.eqb Pos.eqb andb]; cbv zeta. unfold cell. rewrite (RtoC_plus (_ / 3)). ring.
    - ann_tac.
  Qed.
End Cells.
