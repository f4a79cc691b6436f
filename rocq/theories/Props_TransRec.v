(* C18, C19, second halves of C20-C22, parts of C11 and C26 *)
From Verif Require Import TransRecProofs.
From Verif Require Import Cplx.
Open Scope C_scope.

(* on the closed positive z axis the code takes the coaxial branch *)
Definition up_axis (t : vec) : Prop := let '(x, y, z) := t in x = 0%R /\ y = 0%R /\ (0 <= z)%R.
Lemma up_axis_on t : vnorm t <> 0%R -> (on_axis (vnorm t) t = true <-> up_axis t).
Proof.
  intros Ht. split.
  - intros H. destruct (on_axis_true t Ht H) as [E Hp]. rewrite E. cbn. split; [reflexivity|]. split; [reflexivity|lra].
  - destruct t as [[x y] z]. intros (-> & -> & Hz). rewrite vnorm_axis by assumption. unfold on_axis, is0. destruct (Req_EM_T (z - z) 0); [reflexivity|lra].
Qed.
Lemma same_reality q q' : same q q' -> reality q' /\ corners0 q' -> reality q /\ corners0 q.
Proof.
  intros [D H] [Hr Hc]. split.
  - intros l m Hl Hm. rewrite !H by lia. apply Hr; lia.
  - intros l m Hl Hm. rewrite H by lia. apply Hc; lia.
Qed.

(* ---- C18 ---- *)
Theorem C18_recursive_equals_clebsch_gordan : forall q t, (0 <= deg q)%Z -> reality q -> corners0 q ->
  (1 <= deg q)%Z \/ up_axis t ->
  exists q', rec_translate_qlm q t = Ok q' /\ same q' (translate_qlm q t).
Proof.
  intros q t HL Hr Hc Hd. destruct (Req_EM_T (vnorm t) 0) as [E|E].
  - exists q. unfold rec_translate_qlm, translate_qlm. rewrite (is0_true _ E). split; [reflexivity|apply same_refl].
  - destruct (rec_qlm_holds q t HL E) as (q' & E' & D & H); [rewrite up_axis_on by assumption; exact Hd|]. exists q'. split; [exact E'|].
    destruct (translate_qlm_holds q t HL Hr Hc) as [D2 H2]. eapply holds_same; [congruence|exact H|exact H2].
Qed.
(* hence it moves the body *)
Theorem C18_moves_the_body : forall q P t, (1 <= deg q)%Z -> holds q (inner_moment P) ->
  exists q', rec_translate_qlm q t = Ok q' /\ holds q' (inner_moment (map (moved t) P)).
Proof.
  intros q P t HL H. destruct (C18_recursive_equals_clebsch_gordan q t ltac:(lia) (reality_inner q P H) (proj2 H) ltac:(lia)) as (q' & E & D & S).
  exists q'. split; [exact E|]. destruct (translate_points q P t ltac:(lia) H) as [D2 [H2 H3]]. split.
  - intros l m Hl Hm. rewrite S by lia. apply H2; lia.
  - intros l m Hl Hm. rewrite S by lia. apply H3; lia.
Qed.
(* without any symmetry assumption: the addition theorem for every array of numbers *)
Theorem C18_all_arrays : forall q t L M, (1 <= deg q)%Z -> vnorm t <> 0%R -> (0 <= L <= deg q)%Z -> (Z.abs M <= L)%Z ->
  exists q', rec_translate_qlm q t = Ok q' /\
  mom q' L M / RtoC (nrm L M)
  = zsum 0 (L + 1) (fun l => zsum (- l) (l + 1) (fun m => S_ (L - l) (M - m) t * (mom q l m / RtoC (nrm l m)))).
Proof.
  intros q t L M HL Ht HL' HM. destruct (rec_qlm_holds q t ltac:(lia) Ht ltac:(lia)) as (q' & E' & D & [H _]). exists q'. split; [exact E'|].
  rewrite H by lia. transitivity (Tin (deg q) (hq q) t L M); [field; apply nrmC_neq0; lia|]. unfold Tin.
  rewrite (zsum_sub 0 (deg q + 1) 0 (L + 1)) by (lia || (intros k H1 H2; apply zsum_0; intros; rewrite S_neg by lia; ring)).
  apply zsum_ext. intros l Hl.
  rewrite (zsum_sub (- deg q) (deg q + 1) (- l) (l + 1)) by (lia || (intros k H1 H2; rewrite supp_hq by lia; ring)).
  apply zsum_ext. intros m Hm. now rewrite hq_in by lia.
Qed.
Definition exd : marr := mkarr 2 (fun i j => if ((i =? 1) && (j =? 2))%bool%Z then 1 else 0).
Lemma exd_ok : (1 <= deg exd)%Z /\ reality exd /\ corners0 exd /\ mom exd 1 0 = 1.
Proof.
  split; [cbn; lia|]. split; [|split].
  - intros l m Hl Hm. unfold mom, exd in *. cbn [deg at_] in *.
    destruct (Z.eqb_spec l 1), (Z.eqb_spec (2 + - m) 2), (Z.eqb_spec (2 + m) 2); try lia; cbn [andb]; rewrite Cconj_RtoC; try ring.
    assert (m = 0)%Z as -> by lia. rewrite sgnC_0. ring.
  - intros l m Hl Hm. unfold mom, exd in *. cbn [deg at_] in *.
    destruct (Z.eqb_spec l 1), (Z.eqb_spec (2 + m) 2); try lia; reflexivity.
  - reflexivity.
Qed.
Example C18_case : exists q', rec_translate_qlm exd (1, -2, 3)%R = Ok q' /\ same q' (translate_qlm exd (1, -2, 3)%R).
Proof. destruct exd_ok as (H1 & H2 & H3 & _). apply C18_recursive_equals_clebsch_gordan; try assumption; lia. Qed.
Print Assumptions C18_recursive_equals_clebsch_gordan.

(* ---- C19 ---- *)
Theorem C19_RR_shifts_the_body : forall q P d, (0 <= deg q)%Z -> holds q (inner_moment P) -> d <> 0%R ->
  exists ms q', transl_newt_z_RR (deg q) d = Ok ms /\ apply_trans_mat q ms false = Ok q' /\ deg q' = deg q /\
  holds q' (inner_moment (map (moved (0, 0, d)%R) P)).
Proof.
  intros q P d HL Hq Hd. destruct (RR_holds q d HL Hd) as (ds & q' & E1 & E2 & D & H). exists ds, q'.
  split; [exact E1|]. split; [exact E2|]. split; [exact D|]. eapply holds_deg_ext; [|exact H]. rewrite D. intros L M HL' HM.
  rewrite (Tin_ext (deg q) _ (fun l m => lsum (fun p => RtoC (pm p) * S_ l m (pp p)) P)) by (intros; now apply hq_points).
  rewrite Tin_points by lia. assert (Eh := inner_hat (map (moved (0, 0, d)%R) P) L M ltac:(lia)). rewrite lsum_map in Eh.
  unfold moved at 2 3 in Eh. cbn [pm pp] in Eh. rewrite <- Eh. field. apply nrmC_neq0. lia.
Qed.
(* group law at fixed truncation, for every array *)
Theorem C19_RR_group_law : forall q d e, (0 <= deg q)%Z -> d <> 0%R -> e <> 0%R ->
  exists md me q1 q2, transl_newt_z_RR (deg q) d = Ok md /\ transl_newt_z_RR (deg q) e = Ok me /\
    apply_trans_mat q md false = Ok q1 /\ apply_trans_mat q1 me false = Ok q2 /\
    ((d + e <> 0)%R -> exists ms q3, transl_newt_z_RR (deg q) (d + e) = Ok ms /\ apply_trans_mat q ms false = Ok q3 /\ same q2 q3) /\
    ((d + e = 0)%R -> corners0 q -> same q2 q).
Proof.
  intros q d e HL Hd He. destruct (RR_holds q d HL Hd) as (md & q1 & E1 & E2 & D1 & H1).
  destruct (RR_holds q1 e ltac:(lia) He) as (me & q2 & E3 & E4 & D2 & H2). rewrite D1 in *.
  exists md, me, q1, q2. split; [exact E1|]. split; [exact E3|]. split; [exact E2|]. split; [exact E4|].
  assert (Eadd : vadd (0, 0, d)%R (0, 0, e)%R = (0, 0, d + e)%R) by (unfold vadd; vsplit; ring).
  assert (G : holds q2 (fun L M => RtoC (nrm L M) * Tin (deg q) (hq q) (0, 0, d + e)%R L M)).
  { eapply holds_deg_ext; [|exact H2]. rewrite D2. intros L M HL' HM. f_equal. rewrite <- Eadd, <- Tin_comp by (apply supp_hq || lia).
    apply Tin_ext. intros l m Hl. destruct (Z_lt_le_dec l (Z.abs m)).
    - rewrite supp_hq by lia. symmetry. apply Tin_supp; [lia|apply supp_hq|lia].
    - apply hq_hold; rewrite ?D1; assumption || lia. }
  split.
  - intros Hde. destruct (RR_holds q (d + e) HL Hde) as (ms & q3 & E5 & E6 & D3 & H3). exists ms, q3. split; [exact E5|]. split; [exact E6|].
    eapply holds_same; [congruence|exact G|exact H3].
  - intros Hde Hc. split; [congruence|]. rewrite D2. intros l m Hl Hm. destruct (Z_lt_le_dec l (Z.abs m)).
    + rewrite (proj2 G) by lia. symmetry. apply Hc; lia.
    + rewrite (proj1 G) by lia. rewrite Hde. change (0, 0, 0)%R with v0. rewrite Tin_0, hq_in by lia. field. apply nrmC_neq0. lia.
Qed.
Theorem C19_zero_not_finite : forall L, transl_newt_z_RR L 0 = Err NotFinite /\ transl_newt_z_SS L 0 = Err NotFinite /\ transl_newt_z_SR L 0 = Err NotFinite.
Proof. intros L. unfold transl_newt_z_RR, transl_newt_z_SS, transl_newt_z_SR. rewrite is0_true by reflexivity. now repeat split. Qed.
Theorem C19_wrong_length : forall q ms flip, mlen ms <> (deg q + 1)%Z ->
  apply_trans_mat q ms flip = Err ValueError /\ apply_trans_mat_right q ms flip = Err ValueError.
Proof.
  intros q ms b H. unfold apply_trans_mat, apply_trans_mat_right. rewrite (proj2 (Z.eqb_neq (deg q) (mlen ms - 1))) by lia. now split.
Qed.
(* right multiplication is the transposed operator, for every list of matrices *)
Definition dot (L : Z) (q Q : marr) : C := zsum 0 (L + 1) (fun l => zsum (- l) (l + 1) (fun m => mom q l m * mom Q l m)).
Lemma dot_cols L f : (0 <= L)%Z -> zsum 0 (L + 1) (fun l => zsum (- l) (l + 1) (fun m => f l m)) = zsum (- L) (L + 1) (fun m => zsum (Z.abs m) (L + 1) (fun l => f l m)).
Proof.
  intros HL. transitivity (zsum 0 (L + 1) (fun l => zsum (- L) (L + 1) (fun m => if (Z.abs m <=? l)%Z then f l m else 0))).
  - apply zsum_ext. intros l Hl. rewrite (zsum_sub (- L) (L + 1) (- l) (l + 1)) by (lia || (intros m H1 H2; rewrite (proj2 (Z.leb_gt (Z.abs m) l)) by lia; reflexivity)).
    apply zsum_ext. intros m Hm. now rewrite (proj2 (Z.leb_le (Z.abs m) l)) by lia.
  - rewrite zsum_swap. apply zsum_ext. intros m Hm. rewrite (zsum_sub 0 (L + 1) (Z.abs m) (L + 1)) by (lia || (intros l H1 H2; rewrite (proj2 (Z.leb_gt (Z.abs m) l)) by lia; reflexivity)).
    apply zsum_ext. intros l Hl. now rewrite (proj2 (Z.leb_le (Z.abs m) l)) by lia.
Qed.
Theorem C19_right_is_transpose : forall q Q ms q' Q', (0 <= deg q)%Z -> deg Q = deg q ->
  apply_trans_mat q ms false = Ok q' -> apply_trans_mat_right Q ms false = Ok Q' ->
  dot (deg q) q' Q = dot (deg q) q Q'.
Proof.
  intros q Q ms q' Q' HL HQ E E'. assert (Hl : mlen ms = (deg q + 1)%Z).
  { destruct (Z.eq_dec (mlen ms) (deg q + 1)) as [H|H]; [exact H|]. destruct (C19_wrong_length q ms false H) as [H1 _]. congruence. }
  destruct (atm_mom q ms false HL Hl) as (x & Ex & Dx & [Hx _]). rewrite E in Ex. injection Ex as <-.
  destruct (atmr_mom Q ms false ltac:(lia) ltac:(lia)) as (y & Ey & Dy & [Hy _]). rewrite E' in Ey. injection Ey as <-.
  unfold dot. rewrite !dot_cols by lia. apply zsum_ext. intros m Hm.
  transitivity (zsum (Z.abs m) (deg q + 1) (fun l => zsum (Z.abs m) (deg q + 1) (fun k => cj m (mget ms (Z.abs m) (l - Z.abs m)%Z (k - Z.abs m)%Z) * mom q k m * mom Q l m))).
  - apply zsum_ext. intros l Hl'. rewrite Hx by lia. unfold coax_val. rewrite <- zsum_scal_r. reflexivity.
  - rewrite zsum_swap. apply zsum_ext. intros k Hk. rewrite Hy by lia. unfold coax_val. rewrite HQ, <- zsum_scal_l. apply zsum_ext. intros. unfold ttrans. ring.
Qed.
Example C19_case : exists q ms, holds q (inner_moment (mkpt 1 (1, 2, 3)%R :: nil)) /\ transl_newt_z_RR (deg q) (-2) = Ok ms /\
  mlen ms = (deg q + 1)%Z /\ deg q = 3%Z.
Proof.
  destruct (qmoments_good 3 (mkpt 1 (1, 2, 3)%R :: nil) ltac:(lia)) as (q & E & D & H).
  { intros (l1 & p & l2 & r & l3 & E & Hp & Hr). assert (Hi : In p (mkpt 1 (1, 2, 3)%R :: nil)) by (rewrite E; apply in_or_app; right; now left).
    destruct Hi as [<-|[]]. injection Hp; intros; lra. }
  assert (N2 : (-2 <> 0)%R) by (intros ?; lra). destruct (RR_holds q (-2) ltac:(lia) N2) as (ds & q' & E1 & E2 & _). exists q, ds. split; [exact H|]. split; [exact E1|].
  destruct (RR_val _ _ _ N2 E1) as [Hl _]. now split.
Qed.
Print Assumptions C19_RR_group_law.

(* ---- C20: outer translations ---- *)
Theorem C20_SS_group_law : forall Q d e, (0 <= deg Q)%Z -> d <> 0%R -> e <> 0%R ->
  exists md me q1 q2, transl_newt_z_SS (deg Q) d = Ok md /\ transl_newt_z_SS (deg Q) e = Ok me /\
    apply_trans_mat Q md false = Ok q1 /\ apply_trans_mat q1 me false = Ok q2 /\
    ((d + e <> 0)%R -> exists ms q3, transl_newt_z_SS (deg Q) (d + e) = Ok ms /\ apply_trans_mat Q ms false = Ok q3 /\ same q2 q3) /\
    ((d + e = 0)%R -> corners0 Q -> same q2 Q).
Proof.
  intros q d e HL Hd He. destruct (SS_holds q d HL Hd) as (md & q1 & E1 & E2 & D1 & H1).
  destruct (SS_holds q1 e ltac:(lia) He) as (me & q2 & E3 & E4 & D2 & H2). rewrite D1 in *.
  exists md, me, q1, q2. split; [exact E1|]. split; [exact E3|]. split; [exact E2|]. split; [exact E4|].
  assert (Eadd : vadd (0, 0, d)%R (0, 0, e)%R = (0, 0, d + e)%R) by (unfold vadd; vsplit; ring).
  assert (G : holds q2 (fun L M => RtoC ((2 * IZR L + 1) / nrm L M) * Tout (deg q) (hQ q) (0, 0, d + e)%R L M)).
  { eapply holds_deg_ext; [|exact H2]. rewrite D2. intros L M HL' HM. f_equal. rewrite <- Eadd, <- Tout_comp by (apply supp_hQ || lia).
    unfold Tout at 1 2. apply zsum_ext. intros l Hl. apply zsum_ext. intros m Hm. destruct (Z_lt_le_dec l (Z.abs m)).
    - rewrite supp_hQ by lia. destruct (Z.leb_spec (Z.abs m) l); [lia|]. ring.
    - destruct (Z.leb_spec (Z.abs m) l); [|lia]. f_equal. apply hQ_hold; rewrite ?D1; assumption || lia. }
  split.
  - intros Hde. destruct (SS_holds q (d + e) HL Hde) as (ms & q3 & E5 & E6 & D3 & H3). exists ms, q3. split; [exact E5|]. split; [exact E6|].
    eapply holds_same; [congruence|exact G|exact H3].
  - intros Hde Hc. split; [congruence|]. rewrite D2. intros l m Hl Hm. destruct (Z_lt_le_dec l (Z.abs m)).
    + rewrite (proj2 G) by lia. symmetry. apply Hc; lia.
    + rewrite (proj1 G) by lia. rewrite Hde. change (0, 0, 0)%R with v0. rewrite Tout_0, hQ_in by lia.
      rewrite !RtoC_div by ((apply nrm_neq0; lia) || (apply odd_neq0; lia)).
      field. split; [apply RtoC_neq0, odd_neq0; lia|apply nrmC_neq0; lia].
Qed.

Theorem C20_recursive_equals_clebsch_gordan : forall Q t, (0 <= deg Q)%Z -> reality Q -> corners0 Q ->
  (1 <= deg Q)%Z \/ up_axis t ->
  exists Q', rec_translate_Qlmb Q t = Ok Q' /\ same Q' (translate_Qlmb Q t).
Proof.
  intros q t HL Hr Hc Hd. destruct (Req_EM_T (vnorm t) 0) as [E|E].
  - exists q. unfold rec_translate_Qlmb, translate_Qlmb. rewrite (is0_true _ E). split; [reflexivity|apply same_refl].
  - destruct (rec_Qlmb_holds q t HL E) as (q' & E' & D & H); [rewrite up_axis_on by assumption; exact Hd|]. exists q'. split; [exact E'|].
    destruct (translate_Qlmb_holds q t HL Hr Hc) as [D2 H2]. eapply holds_same; [congruence|exact H|exact H2].
Qed.
(* adjointness of the two coaxial operators, for every pair of arrays *)
Theorem C20_SS_adjoint_to_RR : forall q Q d, (0 <= deg q)%Z -> deg Q = deg q -> d <> 0%R ->
  exists mr ms q' Q', transl_newt_z_RR (deg q) d = Ok mr /\ transl_newt_z_SS (deg q) (- d) = Ok ms /\
  apply_trans_mat q mr false = Ok q' /\ apply_trans_mat Q ms false = Ok Q' /\
  pairing (deg q) (mom q') (mom Q) = pairing (deg q) (mom q) (mom Q').
Proof.
  intros q Q d HL HQ Hd. destruct (RR_holds q d HL Hd) as (mr & q' & E1 & E2 & D1 & H1).
  destruct (SS_holds Q (- d) ltac:(lia) ltac:(intros ?; lra)) as (ms & Q' & E3 & E4 & D2 & H2). rewrite HQ in *.
  exists mr, ms, q', Q'. split; [exact E1|]. split; [exact E3|]. split; [exact E2|]. split; [exact E4|].
  rewrite !pairing_hpair by lia. 
  transitivity (hpair (deg q) (Tin (deg q) (hq q) (0, 0, d)%R) (hQ Q)).
  - apply hpair_ext; [|reflexivity|apply Tin_supp; [lia|apply supp_hq]]. intros l m Hl. destruct (Z_lt_le_dec l (Z.abs m)).
    + rewrite supp_hq by lia. symmetry. apply Tin_supp; [lia|apply supp_hq|lia].
    + apply hq_hold; rewrite ?D1; assumption || lia.
  - rewrite hpair_adjoint by (apply supp_hq || apply supp_hQ). apply hpair_ext; [reflexivity| |apply supp_hq]. intros l m Hl Hm.
    symmetry. replace (vopp (0, 0, d)%R) with (0, 0, - d)%R by (unfold vopp; vsplit; ring).
    apply hQ_hold; rewrite ?D2; assumption || lia.
Qed.
Example C20_case : exists Q', rec_translate_Qlmb exd (1, -2, 3)%R = Ok Q' /\ same Q' (translate_Qlmb exd (1, -2, 3)%R).
Proof. destruct exd_ok as (H1 & H2 & H3 & _). apply C20_recursive_equals_clebsch_gordan; try assumption; lia. Qed.
Print Assumptions C20_recursive_equals_clebsch_gordan.
Print Assumptions C20_SS_adjoint_to_RR.

(* ---- C21: the two inner-to-outer conversions agree, for every array ---- *)
Theorem C21_recursive_equals_clebsch_gordan : forall q t, (0 <= deg q)%Z -> vnorm t <> 0%R -> (1 <= deg q)%Z \/ up_axis t ->
  exists Q Q', translate_q2Q q t = Ok Q /\ rec_translate_q2Q q t = Ok Q' /\ same Q' Q.
Proof.
  intros q t HL E Hd. destruct (rec_q2Q_holds q t HL E) as (q' & E' & D & H); [rewrite up_axis_on by assumption; exact Hd|].
  destruct (translate_q2Q_holds q t HL E) as (Q & EQ & D2 & H2). exists Q, q'. split; [exact EQ|]. split; [exact E'|].
  eapply holds_same; [congruence|exact H|exact H2].
Qed.
Theorem C21_recursive_q2Q_of_a_point_mass : forall q t mass, (1 <= deg q)%Z -> vnorm t <> 0%R ->
  holds q (inner_moment (mkpt mass v0 :: nil)) ->
  exists Q, rec_translate_q2Q q t = Ok Q /\ deg Q = deg q /\ holds Q (outer_moment (mkpt mass t :: nil)).
Proof.
  intros q t mass HL Ht Hq. destruct (C21_recursive_equals_clebsch_gordan q t ltac:(lia) Ht ltac:(lia)) as (Q & Q' & E1 & E2 & D & S).
  destruct (q2Q_monopole q t mass ltac:(lia) Ht Hq) as (Q2 & E3 & D3 & [H3 H4]). rewrite E1 in E3. injection E3 as <-.
  exists Q'. split; [exact E2|]. split; [congruence|]. split; intros l m Hl Hm; rewrite S by lia; [apply H3|apply H4]; lia.
Qed.
Example C21_case2 : exists Q Q', translate_q2Q exd (1, -2, 3)%R = Ok Q /\ rec_translate_q2Q exd (1, -2, 3)%R = Ok Q' /\ same Q' Q.
Proof.
  destruct exd_ok as (H1 & H2 & H3 & _). apply C21_recursive_equals_clebsch_gordan; try assumption; try lia.
  intros H. apply vnorm_0_iff in H. injection H; intros; lra.
Qed.
Print Assumptions C21_recursive_equals_clebsch_gordan.

(* ---- C22 ---- *)
Theorem C22_recursive_q2Q_zero_vector_is_a_copy : forall q, rec_translate_q2Q q v0 = Ok q.
Proof. intros q. unfold rec_translate_q2Q. now rewrite is0_true by apply vnorm_v0. Qed.
(* so the two modules disagree there on every array *)
Theorem C22_modules_disagree : forall q, rec_translate_q2Q q v0 <> translate_q2Q q v0.
Proof. intros q. rewrite C22_recursive_q2Q_zero_vector_is_a_copy. unfold translate_q2Q. rewrite is0_true by apply vnorm_v0. discriminate. Qed.
Print Assumptions C22_modules_disagree.

(* ---- C26 (translations) ---- *)
Theorem C26_degree_zero_translations_fail : forall q t, deg q = 0%Z -> vnorm t <> 0%R -> ~ up_axis t ->
  rec_translate_qlm q t = Err TypeError /\ rec_translate_Qlmb q t = Err TypeError /\ rec_translate_q2Q q t = Err TypeError.
Proof.
  intros q t Hd Ht Hn. assert (Eax : on_axis (vnorm t) t = false).
  { destruct (on_axis (vnorm t) t) eqn:E; [|reflexivity]. exfalso. apply Hn. now apply up_axis_on. }
  unfold rec_translate_qlm, rec_translate_Qlmb, rec_translate_q2Q, transl_newt_z_RR, transl_newt_z_SS, transl_newt_z_SR.
  rewrite !is0_false by assumption. cbn [bind]. rewrite Eax, Hd. unfold wignerDl, rotate_H_recurs. cbn [Z.eqb bind]. now repeat split.
Qed.
Example C26_case : let q := zeros 0 in deg q = 0%Z /\ vnorm (1, 0, 0)%R <> 0%R /\ ~ up_axis (1, 0, 0)%R.
Proof.
  split; [reflexivity|]. split; [intros H; apply vnorm_0_iff in H; injection H; intros; lra|]. intros (H & _). lra.
Qed.
Print Assumptions C26_degree_zero_translations_fail.

(* ---- C11 (recursive translations) ---- *)
Theorem C11_recursively_translated_arrays : forall q t, (1 <= deg q)%Z -> reality q -> corners0 q ->
  (forall q', rec_translate_qlm q t = Ok q' -> reality q' /\ corners0 q') /\
  (forall q', rec_translate_Qlmb q t = Ok q' -> reality q' /\ corners0 q') /\
  (forall q', rec_translate_q2Q q t = Ok q' -> reality q' /\ corners0 q').
Proof.
  intros q t HL Hr Hc. split; [|split]; intros q' E.
  - destruct (C18_recursive_equals_clebsch_gordan q t ltac:(lia) Hr Hc ltac:(lia)) as (x & Ex & S). rewrite E in Ex. injection Ex as <-.
    eapply same_reality; [exact S|]. apply translate_reality; assumption || lia.
  - destruct (C20_recursive_equals_clebsch_gordan q t ltac:(lia) Hr Hc ltac:(lia)) as (x & Ex & S). rewrite E in Ex. injection Ex as <-.
    eapply same_reality; [exact S|]. apply translateQ_reality; assumption || lia.
  - destruct (Req_EM_T (vnorm t) 0) as [Et|Et].
    + apply vnorm_0_iff in Et. subst t. rewrite C22_recursive_q2Q_zero_vector_is_a_copy in E. injection E as <-. now split.
    + destruct (C21_recursive_equals_clebsch_gordan q t ltac:(lia) Et ltac:(lia)) as (Q & x & EQ & Ex & S). rewrite E in Ex. injection Ex as <-.
      eapply same_reality; [exact S|]. eapply q2Q_symm; [|exact Hr|exact EQ]. lia.
Qed.
