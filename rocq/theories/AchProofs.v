(* The closed forms of qlmACH.py are volume integrals: assembly and polyhedra. *)
From Verif Require Export QlmACH AchSpec AchTab QlmProofs6.
From Verif Require Import ClebschGordanProofs TranslationsProofs.
From Verif Require Import Cplx.
Open Scope C_scope.

Definition tabf (tab : list (Z * Z * C)) (l m : Z) : C :=
  fold_left (fun acc '((a, b), v) => if ((a =? l) && (b =? m))%bool%Z then v else acc) tab 0.
Definition tabwf (tab : list (Z * Z * C)) : bool := forallb (fun '((l, m), _) => (0 <=? m) && (m <=? l) && (l <=? 5))%bool%Z tab.

Lemma deg_puts_gen L tab : forall q, deg (fold_left (fun q '((l, m), v) => upd q l (L + m)%Z v) tab q) = deg q.
Proof. induction tab as [|[[a b] v] tab IH]; intros q; [reflexivity|]. cbn [fold_left]. now rewrite IH. Qed.
Lemma deg_puts L tab : deg (ach_puts L tab) = L.
Proof. unfold ach_puts. now rewrite deg_puts_gen. Qed.
Lemma puts_gen tab : forall q L l m, at_ (fold_left (fun q '((a, b), v) => upd q a (L + b)%Z v) tab q) l (L + m)%Z
   = fold_left (fun acc '((a, b), v) => if ((a =? l) && (b =? m))%bool%Z then v else acc) tab (at_ q l (L + m)%Z).
Proof.
  induction tab as [|[[a b] v] tab IH]; intros q L l m; [reflexivity|].
  cbn [fold_left]. rewrite IH. f_equal. rewrite upd_spec.
  destruct (Z.eqb_spec l a), (Z.eqb_spec a l), (Z.eqb_spec (L + m) (L + b)), (Z.eqb_spec b m); try lia; reflexivity.
Qed.
Lemma tabf_out_gen tab l m : forall z, tabwf tab = true -> (l < m \/ m < 0 \/ 5 < l)%Z ->
  fold_left (fun (acc : C) '((a, b), v) => if ((a =? l) && (b =? m))%bool%Z then v else acc) tab z = z.
Proof.
  unfold tabwf. induction tab as [|[[a b] v] tab IH]; intros z W H; [reflexivity|].
  cbn [fold_left]. cbn [forallb] in W. apply andb_prop in W. destruct W as [W1 W2].
  apply andb_prop in W1. destruct W1 as [W1 W3]. apply andb_prop in W1. destruct W1 as [W1 W4].
  rewrite IH by assumption. destruct (Z.eqb_spec a l), (Z.eqb_spec b m); cbn [andb]; try reflexivity. subst. lia.
Qed.
Lemma tabf_out tab l m : tabwf tab = true -> (l < m \/ m < 0 \/ 5 < l)%Z -> tabf tab l m = 0.
Proof. apply tabf_out_gen. Qed.
Lemma half_puts L tab : tabwf tab = true -> half (ach_puts L tab) (tabf tab).
Proof.
  intros W l m Hl Hm. unfold mom. rewrite deg_puts. unfold ach_puts. rewrite puts_gen. cbn [zeros at_]. fold (tabf tab l m).
  destruct (Z.leb_spec 0 m), (Z.leb_spec m l); cbn [andb]; try reflexivity; apply tabf_out; (assumption || lia).
Qed.
(* every array built by ach_finish: shape, entries *)
Lemma ach_mom LMax tab l m : (0 <= LMax)%Z -> tabwf tab = true -> (0 <= l <= LMax)%Z -> (Z.abs m <= LMax)%Z ->
  mom (ach_finish LMax tab) l m = mom (Arr.reflect (ach_puts (Z.max 5 LMax) tab)) l m.
Proof.
  intros HL W Hl Hm. unfold ach_finish. cbv zeta. destruct (Z.ltb_spec LMax 5).
  - replace (Z.max 5 LMax) with 5%Z by lia. unfold mom. cbn [deg at_]. rewrite deg_reflect, deg_puts. f_equal. ring.
  - replace (Z.max 5 LMax) with LMax by lia. reflexivity.
Qed.
Lemma deg_ach LMax tab : deg (ach_finish LMax tab) = LMax.
Proof. unfold ach_finish. cbv zeta. destruct (Z.ltb_spec LMax 5); [reflexivity|]. rewrite deg_reflect, deg_puts. reflexivity. Qed.
Lemma ach_reality LMax tab : (0 <= LMax)%Z -> tabwf tab = true -> reality (ach_finish LMax tab) /\ corners0 (ach_finish LMax tab).
Proof.
  intros HL W. destruct (reflect_reality _ _ (half_puts (Z.max 5 LMax) tab W)) as [R1 R2]. split.
  - intros l m Hl Hm. rewrite deg_ach in *. rewrite !ach_mom by (assumption || lia). apply R1; rewrite deg_reflect, deg_puts; lia.
  - intros l m Hl Hm. rewrite deg_ach in *. rewrite !ach_mom by (assumption || lia). apply R2; rewrite ?deg_reflect, ?deg_puts; lia.
Qed.
Lemma ach_zero LMax tab l m : (0 <= LMax)%Z -> tabwf tab = true -> (5 < l <= LMax)%Z -> (Z.abs m <= LMax)%Z -> mom (ach_finish LMax tab) l m = 0.
Proof.
  intros HL W Hl Hm. rewrite ach_mom by (assumption || lia). rewrite (reflect_mom _ (tabf tab)) by (try apply half_puts; rewrite ?deg_puts; (assumption || lia)).
  rewrite !(tabf_out tab) by (assumption || lia).
  destruct (_ =? _)%Z; [reflexivity|]. destruct (_ && _)%bool; [reflexivity|]. destruct (_ && _)%bool; [|reflexivity].
  replace (Cconj 0) with (RtoC 0) by (apply C_eq; cbn; ring). ring.
Qed.
(* the m >= 0 entry *)
Lemma ach_entry LMax tab l m : (0 <= LMax)%Z -> tabwf tab = true -> (0 <= m <= l)%Z -> (l <= LMax)%Z ->
  mom (ach_finish LMax tab) l m = if (m =? 0)%Z then RtoC (Re (tabf tab l 0)) else tabf tab l m.
Proof.
  intros HL W Hm Hl. rewrite ach_mom by (assumption || lia). rewrite (reflect_mom _ (tabf tab)) by (try apply half_puts; rewrite ?deg_puts; (assumption || lia)).
  destruct (Z.eqb_spec m 0); [reflexivity|]. destruct (Z.ltb_spec 0 m), (Z.leb_spec m l); try lia; reflexivity.
Qed.

Lemma ach_body (B : body) (ii : Z -> Z -> C) rho V LMax tab ok : (0 <= LMax)%Z -> tabwf tab = true -> regular B -> V <> 0%R -> B (fun _ _ _ => 1) (RtoC V) ->
  (forall l m, (0 <= m <= l)%Z -> (l <= 5)%Z -> ok l m = true -> B (fun x y z => solid l m x y z) (ii l m)) ->
  (forall l m, (0 <= m <= l)%Z -> (l <= 5)%Z -> ok l m = true -> tabf tab l m = RtoC (rho * (Rabs V / V)) * (RtoC (nrm l m) * ii l m)) ->
  density_moments ok (ach_finish LMax tab) rho B.
Proof.
  intros HL W RB HV BV Hi Ht. exists V. split; [exact HV|]. split; [exact BV|].
  assert (HH : forall l m, (0 <= m <= l)%Z -> (l <= 5)%Z -> ok l m = true -> exists I, B (fun x y z => rsolid l m (x, y, z)) I /\ tabf tab l m = RtoC (rho * (Rabs V / V)) * I).
  { intros l m Hm Hl Ho. exists (RtoC (nrm l m) * ii l m). split; [|now apply Ht].
    exact (reg_scal B RB (RtoC (nrm l m)) (fun x y z => solid l m x y z) _ (Hi l m Hm Hl Ho)). }
  split; [|split; [|now apply ach_reality]].
  2:{ intros l m Hl Hm. rewrite deg_ach in *. now apply ach_zero. }
  intros l m Hl Hl5 Hm Ho. rewrite deg_ach in *.
  rewrite ach_mom by (assumption || lia). rewrite (reflect_mom _ (tabf tab)) by (try apply half_puts; rewrite ?deg_puts; (assumption || lia)).
  destruct (Z.eqb_spec m 0) as [->|Hm0].
  - destruct (HH l 0%Z ltac:(lia) ltac:(lia) Ho) as (I & HI & E). exists I. split; [exact HI|].
    assert (R0 : Cconj I = I).
    { apply (reg_unique B RB (fun x y z => rsolid l 0 (x, y, z))); [|exact HI].
      eapply (reg_ext B RB); [|apply (reg_conj B RB _ _ HI)]. intros x y z. cbv beta. assert (G := VInt.rsolid_symm l 0 x y z). change (- 0)%Z with 0%Z in G. rewrite sgnC_0 in G. rewrite G at 2. ring. }
    rewrite E. apply Cconj_fix_real in R0. destruct I as [i0 i1]. unfold Im in R0. cbn in R0. subst i1. apply C_eq; cbn; ring.
  - destruct (Z.ltb_spec 0 m), (Z.ltb_spec m 0), (Z.leb_spec m l), (Z.leb_spec (- m) l); try lia; cbn [andb].
    + replace (Z.abs m) with m in Ho by lia. apply HH; (assumption || lia).
    + replace (Z.abs m) with (- m)%Z in Ho by lia. destruct (HH l (- m)%Z ltac:(lia) ltac:(lia) Ho) as (I & HI & E). exists (sgnC m * Cconj I). split.
      * eapply (reg_ext B RB); [|apply (reg_scal B RB (sgnC m) _ _ (reg_conj B RB _ _ HI))]. intros x y z. cbv beta.
        assert (G := VInt.rsolid_symm l (- m) x y z). rewrite Z.opp_involutive, sgnC_opp in G. now rewrite G.
      * rewrite E, Cconj_mult, Cconj_RtoC. ring.
Qed.
Lemma mono_solid5 (B : body) mu l m : regular B ->
  (forall a b c, (0 <= a)%Z -> (0 <= b)%Z -> (0 <= c)%Z -> (a + b + c = l)%Z -> B (mono a b c) (RtoC (mu a b c))) -> (0 <= m <= l)%Z ->
  B (fun x y z => solid l m x y z) (mono_int mu l m).
Proof.
  intros RB H Hm. destruct (half_range l m Hm) as [Hr Hr'].
  eapply (reg_ext _ RB); [intros x y z; symmetry; apply solid_mono; assumption|].
  apply (reg_zsum B 0 _ (fun k x y z => zsum 0 (m + k + 1) (fun p => zsum 0 (k + 1) (fun j => coef m k p j * mono (m + 2 * k - (p + j)) (p + j) (l - m - 2 * k) x y z)))); [assumption|lia|].
  intros k Hk.
  apply (reg_zsum B 0 _ (fun p x y z => zsum 0 (k + 1) (fun j => coef m k p j * mono (m + 2 * k - (p + j)) (p + j) (l - m - 2 * k) x y z))); [assumption|lia|].
  intros p Hp.
  apply (reg_zsum B 0 _ (fun j x y z => coef m k p j * mono (m + 2 * k - (p + j)) (p + j) (l - m - 2 * k) x y z)); [assumption|lia|].
  intros j Hj. apply (reg_scal B RB). apply H; lia.
Qed.

(* case split over the entries of degree <= 5 *)
Lemma lm_cases (P : Z -> Z -> Prop) :
  P 0%Z 0%Z -> P 1%Z 0%Z -> P 1%Z 1%Z -> P 2%Z 0%Z -> P 2%Z 1%Z -> P 2%Z 2%Z -> P 3%Z 0%Z -> P 3%Z 1%Z -> P 3%Z 2%Z -> P 3%Z 3%Z ->
  P 4%Z 0%Z -> P 4%Z 1%Z -> P 4%Z 2%Z -> P 4%Z 3%Z -> P 4%Z 4%Z -> P 5%Z 0%Z -> P 5%Z 1%Z -> P 5%Z 2%Z -> P 5%Z 3%Z -> P 5%Z 4%Z -> P 5%Z 5%Z ->
  forall l m, (0 <= m <= l)%Z -> (l <= 5)%Z -> P l m.
Proof.
  intros. assert (C0 : (l = 0 \/ l = 1 \/ l = 2 \/ l = 3 \/ l = 4 \/ l = 5)%Z) by lia. assert (C1 : (m = 0 \/ m = 1 \/ m = 2 \/ m = 3 \/ m = 4 \/ m = 5)%Z) by lia.
  destruct C0 as [->|[->|[->|[->|[->| ->]]]]]; destruct C1 as [->|[->|[->|[->|[->| ->]]]]]; try assumption; exfalso; lia.
Qed.
(* reads the entry off the table *)
Ltac tab_read := cbv [tabf fold_left Z.eqb Pos.eqb andb]; cbv zeta.
Ltac rw_nrm := rewrite ?nrm_00, ?nrm_10, ?nrm_11, ?nrm_20, ?nrm_21, ?nrm_22, ?nrm_30, ?nrm_31, ?nrm_32, ?nrm_33, ?nrm_40, ?nrm_41, ?nrm_42, ?nrm_43, ?nrm_44, ?nrm_50, ?nrm_51, ?nrm_52, ?nrm_53, ?nrm_54, ?nrm_55.
Ltac rw_mi := rewrite ?mi_00, ?mi_10, ?mi_11, ?mi_20, ?mi_21, ?mi_22, ?mi_30, ?mi_31, ?mi_32, ?mi_33, ?mi_40, ?mi_41, ?mi_42, ?mi_43, ?mi_44, ?mi_50, ?mi_51, ?mi_52, ?mi_53, ?mi_54, ?mi_55.
Ltac zc := cbv [Z.sub Z.add Z.opp Z.mul Z.pos_sub Pos.mul Pos.add Pos.succ Pos.pred_double Z.double Z.succ_double Z.pred_double Pos.add_carry Z.even].
Ltac rw_zf := rewrite ?zf0, ?zf1, ?zf2, ?zf3, ?zf4, ?zf5, ?zf6, ?zf7, ?zf8, ?zf9, ?zf10.
Ltac rw_pw := rewrite ?pwl0, ?pwl1, ?pwl2, ?pwl3, ?pwl4, ?pwl5, ?pwl6, ?pwl7, ?pwl8, ?pwl9, ?pwl10.

Ltac ne0 := first [apply sPn|apply s2n|apply s3n|apply s5n|apply s7n|apply s11n|apply PI_neq0|assumption|lra|(intros ?; lra)].
Ltac sqfin := field [s2s s3s s5s s7s s11s]; repeat split; ne0.
Ltac ach_open := tab_read; rw_mi; rw_nrm.
Ltac ach_calc := zc; cbv iota; rw_zf; rw_pw; apply C_eq; cbn [Cmult Cplus Cminus Copp Cdiv Cinv Ci RtoC fst snd Re Im]; sqsplit; sqfin.

(* ---- rectangular prism ------------------------------------------------------ *)
Lemma ach_rect_prism_body LMax rho x y z q : (0 <= LMax)%Z -> ach_rect_prism LMax rho x y z = Ok q ->
  deg q = LMax /\ density_moments every q rho (box z x y).
Proof.
  intros HL E. unfold ach_rect_prism in E. destruct (_ || _)%bool eqn:G; [discriminate|]. apply Ok_inj in E. subst q.
  apply Bool.orb_false_elim in G. destruct G as [G G3]. apply Bool.orb_false_elim in G. destruct G as [G1 G2].
  apply rle_false in G1. apply rle_false in G2. apply rle_false in G3.
  split; [apply deg_ach|]. assert (HV : (0 < z * x * y)%R) by (repeat apply Rmult_lt_0_compat; lra).
  apply (ach_body _ (mono_int (mu_box z x y)) rho (z * x * y)); [assumption|reflexivity|apply regular_box|lra| | |].
  - rewrite <- box_volume. apply mono_000; [apply regular_box|intros; now apply box_mono].
  - intros l m Hm _ _. apply mono_solid; [apply regular_box|intros; now apply box_mono|assumption].
  - intros l m Hm Hl _. rewrite (Rabs_pos_eq (z * x * y)) by lra. replace (z * x * y / (z * x * y))%R with 1%R by (field; lra). rewrite Rmult_1_r. revert l m Hm Hl.
    apply lm_cases.
    all: unfold ach_rect_prism_tab; ach_open; unfold mu_box, zval; ach_calc.
Qed.

(* ---- triangular prism ----------------------------------------------------------- *)
Lemma ach_tri_prism_body LMax rho h d y1 y2 q : (0 <= LMax)%Z -> ach_tri_prism LMax rho h d y1 y2 = Ok q ->
  deg q = LMax /\ density_moments every q rho (triangular_prism h d y1 y2).
Proof.
  intros HL E. unfold ach_tri_prism in E. destruct (_ || _)%bool eqn:G; [discriminate|]. apply Ok_inj in E. subst q.
  apply Bool.orb_false_elim in G. destruct G as [G G3]. apply Bool.orb_false_elim in G. destruct G as [G1 G2].
  apply rle_false in G1. apply req_false in G2. apply req_false in G3.
  assert (Hy : (y2 - y1 <> 0)%R) by (intros ?; apply G3; lra).
  split; [apply deg_ach|]. set (V := (h * d * (y2 - y1) / 2)%R).
  assert (HV : V <> 0%R) by (unfold V; repeat (assumption || apply Rmult_integral_contrapositive_currified); lra).
  apply (ach_body _ (mono_int (mu_tri h d y1 y2)) rho V); [assumption|reflexivity|apply regular_tri|assumption| | |].
  - unfold V. rewrite <- tri_volume. apply mono_000; [apply regular_tri|intros; now apply tri_mono].
  - intros l m Hm _ _. apply mono_solid; [apply regular_tri|intros; now apply tri_mono|assumption].
  - intros l m Hm Hl _. assert (EV : Rabs V = (h * Rabs (d * (y1 - y2)) / 2)%R).
    { unfold V. replace (h * d * (y2 - y1) / 2)%R with (- (h / 2 * (d * (y1 - y2))))%R by field. rewrite Rabs_Ropp, Rabs_mult, (Rabs_pos_eq (h / 2)) by lra. field. }
    rewrite EV. unfold V. clear EV HV V. revert l m Hm Hl. unfold ach_tri_prism_tab. set (S := Rabs _). clearbody S.
    apply lm_cases.
    all: ach_open; unfold mu_tri, zval; ach_calc.
Qed.
