(* C16, C17, C20-C22 (translations.py), parts of C11 *)
From Verif Require Import TranslationsProofs GlibProofs2.
Open Scope C_scope.

(* ---- C16: translating the moments of a body = moments of the translated body ---- *)
Theorem C16_translate_qlm_moves_the_body : forall q P t, (0 <= deg q)%Z -> holds q (inner_moment P) ->
  deg (translate_qlm q t) = deg q /\ holds (translate_qlm q t) (inner_moment (map (moved t) P)).
Proof. exact translate_points. Qed.
(* end to end, through qmoments and translate_point_array *)
Theorem C16_translate_qlm_end_to_end : forall L P t P' q q', (0 <= L)%Z ->
  translate_point_array (Rows P) t = Rows P' ->
  qmoments L P = Ok q -> qmoments L P' = Ok q' -> same (translate_qlm q t) q'.
Proof.
  intros L P t P' q q' HL HP Hq Hq'. destruct (Z.eq_dec L 0) as [->|HL0].
  - destruct (qmoments_0 P) as (a & Ea & Da & Ha). rewrite Hq in Ea. injection Ea as <-.
    destruct (qmoments_0 P') as (b & Eb & Db & Hb). rewrite Hq' in Eb. injection Eb as <-.
    destruct (translate_points q P t ltac:(lia) Ha) as [D H].
    assert (P' = map (moved t) P) as -> by (cbn in HP; injection HP as <-; reflexivity).
    eapply holds_same; [congruence|exact H|exact Hb].
  - assert (G : forall ma x, qmoments L ma = Ok x -> deg x = L /\ holds x (inner_moment ma)).
    { intros ma x Hx. destruct (Classical_Prop.classic (origin_before_other ma)) as [Hb|Hb].
      - rewrite (qmoments_bad L ma) in Hx by (assumption || lia). discriminate.
      - destruct (qmoments_good L ma HL Hb) as (a & Ea & Da & Ha). rewrite Hx in Ea. injection Ea as <-. now split. }
    destruct (G _ _ Hq) as [Da Ha]. destruct (G _ _ Hq') as [Db Hb].
    destruct (translate_points q P t ltac:(lia) Ha) as [D H].
    assert (P' = map (moved t) P) as -> by (cbn in HP; injection HP as <-; reflexivity).
    eapply holds_same; [congruence|exact H|exact Hb].
Qed.
Definition ex_P : list pt := mkpt 2 (1, 0, 3)%R :: mkpt 3 (0, -1, 2)%R :: nil.
Example C16_case : exists q q' P', translate_point_array (Rows ex_P) (1, 2, 3)%R = Rows P' /\
  qmoments 4 ex_P = Ok q /\ qmoments 4 P' = Ok q'.
Proof.
  assert (G : forall ma, (forall p, In p ma -> ~ at_origin p) -> ~ origin_before_other ma).
  { intros ma H (l1 & p & l2 & r & l3 & E & Hp & Hr). apply (H p); [|exact Hp]. rewrite E. apply in_or_app. right. now left. }
  destruct (qmoments_good 4 ex_P ltac:(lia)) as (q & E & _).
  { apply G. intros p [<-|[<-|[]]] H; injection H; intros; lra. }
  destruct (qmoments_good 4 (map (moved (1, 2, 3)%R) ex_P) ltac:(lia)) as (q' & E' & _).
  { apply G. intros p [<-|[<-|[]]] H; injection H; intros; lra. }
  exists q, q', (map (moved (1, 2, 3)%R) ex_P). split; [reflexivity|]. now split.
Qed.
Print Assumptions C16_translate_qlm_end_to_end.

(* ---- C17: translations compose, for every array with the reality symmetry ---- *)
Theorem C17_translations_compose : forall q t u, (0 <= deg q)%Z -> reality q -> corners0 q ->
  same (translate_qlm (translate_qlm q t) u) (translate_qlm q (vadd t u)).
Proof. exact translate_comp. Qed.
Theorem C17_zero_is_identity : forall q, translate_qlm q v0 = q.
Proof. exact translate_0. Qed.
Theorem C17_inverse : forall q t, (0 <= deg q)%Z -> reality q -> corners0 q ->
  same (translate_qlm (translate_qlm q t) (vopp t)) q.
Proof.
  intros q t Hd Hr Hc. eapply same_trans; [now apply translate_comp|]. rewrite vadd_opp, translate_0. apply same_refl.
Qed.
(* the general matrix element: Hobson's addition theorem; also for arrays that are not
   moments of point masses *)
Theorem C17_translated_entries : forall q t L M, (0 <= deg q)%Z -> reality q -> corners0 q ->
  (0 <= L <= deg q)%Z -> (Z.abs M <= L)%Z ->
  mom (translate_qlm q t) L M / RtoC (nrm L M)
  = zsum 0 (L + 1) (fun l => zsum (- l) (l + 1) (fun m => S_ (L - l) (M - m) t * (mom q l m / RtoC (nrm l m)))).
Proof.
  intros q t L M Hd Hr Hc HL HM. destruct (translate_qlm_holds q t Hd Hr Hc) as [E [H _]].
  rewrite H by lia. transitivity (Tin (deg q) (hq q) t L M); [field; apply nrmC_neq0; lia|]. unfold Tin.
  rewrite (zsum_sub 0 (deg q + 1) 0 (L + 1)) by (lia || (intros k H1 H2; apply zsum_0; intros; rewrite S_neg by lia; ring)).
  apply zsum_ext. intros l Hl.
  rewrite (zsum_sub (- deg q) (deg q + 1) (- l) (l + 1)) by (lia || (intros k H1 H2; rewrite supp_hq by lia; ring)).
  apply zsum_ext. intros m Hm. unfold hq. now rewrite (proj2 (Z.leb_le (Z.abs m) l)) by lia.
Qed.
(* a symmetric array that is the moment array of no positive mass: pure dipole *)
Definition ex_arr : marr := mkarr 1 (fun i j => if ((i =? 1) && (j =? 1))%bool%Z then 1 else 0).
Example C17_case : (0 <= deg ex_arr)%Z /\ reality ex_arr /\ corners0 ex_arr /\ mom ex_arr 1 0 = 1.
Proof.
  split; [cbn; lia|]. split; [|split].
  - intros l m Hl Hm. unfold mom, ex_arr in *. cbn [deg at_] in *.
    destruct (Z.eqb_spec l 1), (Z.eqb_spec (1 + - m) 1), (Z.eqb_spec (1 + m) 1); try lia; cbn [andb]; rewrite Cconj_RtoC; try ring.
    assert (m = 0)%Z as -> by lia. rewrite sgnC_0. ring.
  - intros l m Hl Hm. unfold mom, ex_arr in *. cbn [deg at_] in *.
    destruct (Z.eqb_spec l 1), (Z.eqb_spec (1 + m) 1); try lia; reflexivity.
  - reflexivity.
Qed.
Print Assumptions C17_translations_compose.

(* ---- C11 (translated arrays) ---- *)
Theorem C11_translated_arrays : forall q t, (0 <= deg q)%Z -> reality q -> corners0 q ->
  (reality (translate_qlm q t) /\ corners0 (translate_qlm q t)) /\
  (reality (translate_Qlmb q t) /\ corners0 (translate_Qlmb q t)) /\
  (forall Q, translate_q2Q q t = Ok Q -> reality Q /\ corners0 Q).
Proof.
  intros q t Hd Hr Hc. split; [now apply translate_reality|]. split; [now apply translateQ_reality|].
  intros Q. now apply q2Q_symm.
Qed.

(* ---- C20: outer translations at fixed truncation ---- *)
Theorem C20_outer_translation_group : forall Q t u, (0 <= deg Q)%Z -> reality Q -> corners0 Q ->
  same (translate_Qlmb (translate_Qlmb Q t) u) (translate_Qlmb Q (vadd t u)) /\ translate_Qlmb Q v0 = Q /\
  same (translate_Qlmb (translate_Qlmb Q t) (vopp t)) Q.
Proof.
  intros Q t u Hd Hr Hc. split; [now apply translateQ_comp|]. split; [apply translateQ_0|].
  eapply same_trans; [now apply translateQ_comp|]. rewrite vadd_opp, translateQ_0. apply same_refl.
Qed.
(* the truncated interaction sum_l 1/(2l+1) sum_m q_lm Q_lm is the same whether the sensor is
   moved by t or the source field by -t *)
Theorem C20_outer_adjoint_to_inner : forall q Q t, (0 <= deg q)%Z -> deg Q = deg q ->
  reality q -> corners0 q -> reality Q -> corners0 Q ->
  pairing (deg q) (mom (translate_qlm q t)) (mom Q) = pairing (deg q) (mom q) (mom (translate_Qlmb Q (vopp t))).
Proof. exact pairing_adjoint. Qed.
Theorem C20_translated_entries : forall Q t L M, (0 <= deg Q)%Z -> reality Q -> corners0 Q ->
  (0 <= L <= deg Q)%Z -> (Z.abs M <= L)%Z ->
  hatQ (mom (translate_Qlmb Q t)) L M
  = zsum L (deg Q + 1) (fun l => zsum (- l) (l + 1) (fun m => S_ (l - L) (m - M) (vopp t) * hatQ (mom Q) l m)).
Proof.
  intros Q t L M Hd Hr Hc HL HM. destruct (translate_Qlmb_holds Q t Hd Hr Hc) as [E H].
  transitivity (hQ (translate_Qlmb Q t) L M). { unfold hQ, hatQ. now rewrite (proj2 (Z.leb_le _ _)) by lia. }
  rewrite (hQ_hold _ (Tout (deg Q) (hQ Q) t)) by (assumption || lia). unfold Tout.
  rewrite (zsum_sub 0 (deg Q + 1) L (deg Q + 1)) by (lia || (intros k H1 H2; apply zsum_0; intros; rewrite S_neg by lia; ring)).
  apply zsum_ext. intros l Hl.
  rewrite (zsum_sub (- deg Q) (deg Q + 1) (- l) (l + 1)) by (lia || (intros k H1 H2; rewrite supp_hQ by lia; ring)).
  apply zsum_ext. intros m Hm. unfold hQ, hatQ. now rewrite (proj2 (Z.leb_le (Z.abs m) l)) by lia.
Qed.
Print Assumptions C20_outer_adjoint_to_inner.

(* ---- C21: inner to outer ---- *)
(* a point mass at the origin becomes exactly the outer moments of that mass at t *)
Theorem C21_q2Q_of_a_point_mass : forall q t mass, (0 <= deg q)%Z -> vnorm t <> 0%R ->
  holds q (inner_moment (mkpt mass v0 :: nil)) ->
  exists Q, translate_q2Q q t = Ok Q /\ deg Q = deg q /\ holds Q (outer_moment (mkpt mass t :: nil)).
Proof. exact q2Q_monopole. Qed.
(* the truncated interaction of q' with q moved to t is that of q with q' moved to -t *)
Theorem C21_q2Q_reciprocity : forall q q' t Q Q', (0 <= deg q)%Z -> deg q' = deg q -> vnorm t <> 0%R ->
  translate_q2Q q t = Ok Q -> translate_q2Q q' (vopp t) = Ok Q' ->
  pairing (deg q) (mom q') (mom Q) = pairing (deg q) (mom q) (mom Q').
Proof. exact q2Q_reciprocity. Qed.
(* general matrix element *)
Theorem C21_q2Q_entries : forall q t, (0 <= deg q)%Z -> vnorm t <> 0%R ->
  exists Q, translate_q2Q q t = Ok Q /\ deg Q = deg q /\ corners0 Q /\
  forall L M, (0 <= L <= deg q)%Z -> (Z.abs M <= L)%Z ->
   hatQ (mom Q) L M = zsum 0 (deg q + 1) (fun l => zsum (- l) (l + 1) (fun m =>
     sgnC l * (mom q l m / RtoC (nrm l m)) * hatQ (fun a b => isolid a b t) (L + l) (M + m))).
Proof.
  intros q t Hd Ht. destruct (translate_q2Q_holds q t Hd Ht) as (Q & E & D & H). exists Q.
  split; [exact E|]. split; [exact D|]. split; [apply H|]. intros L M HL HM.
  transitivity (hQ Q L M). { unfold hQ, hatQ. now rewrite (proj2 (Z.leb_le _ _)) by lia. }
  rewrite (hQ_hold _ (Tq2Q (deg q) (hq q) t)) by (assumption || lia). unfold Tq2Q.
  apply zsum_ext. intros l Hl. apply zsum_ext. intros m Hm. unfold hq, I_. now rewrite (proj2 (Z.leb_le (Z.abs m) l)) by lia.
Qed.
Example C21_case : exists q Q, (0 <= deg q)%Z /\ holds q (inner_moment (mkpt 7 v0 :: nil)) /\ translate_q2Q q (0, 0, 2)%R = Ok Q.
Proof.
  destruct (qmoments_good 3 (mkpt 7 v0 :: nil) ltac:(lia)) as (q & E & D & H).
  { intros (l1 & p & l2 & r & l3 & E & Hp & Hr). destruct l1 as [|? l1]; injection E; intros; subst.
    - destruct l2; discriminate.
    - destruct l1; discriminate. }
  assert (Ht : vnorm (0, 0, 2)%R <> 0%R) by (intros H0; apply vnorm_0_iff in H0; injection H0; intros; lra).
  destruct (translate_q2Q_holds q (0, 0, 2)%R ltac:(lia) Ht) as (Q & EQ & _). exists q, Q. split; [lia|]. now split.
Qed.
Print Assumptions C21_q2Q_reciprocity.

(* ---- C22: at the zero vector translations.translate_q2Q has no finite result ---- *)
Theorem C22_q2Q_zero_vector_not_finite : forall q, translate_q2Q q v0 = Err NotFinite.
Proof. intros q. unfold translate_q2Q. now rewrite TranslationsProofs.is0_true by apply vnorm_v0. Qed.
