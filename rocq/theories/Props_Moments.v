(* C08-C13, C47: the theorems about pg2Multi.py *)
From Verif Require Import Pg2MultiProofs.
From Coq Require Import Permutation.
Open Scope C_scope.

Definition ex_pts : list pt := mkpt 2 (1, 0, 3)%R :: mkpt 3 (0, -1, 2)%R :: mkpt 5 (0, 0, 0)%R :: nil.
Definition ex_bad : list pt := mkpt 5 (0, 0, 0)%R :: mkpt 2 (1, 0, 3)%R :: nil.
Example ex_bad_is_bad : origin_before_other ex_bad.
Proof.
  exists nil, (mkpt 5 (0, 0, 0)%R), nil, (mkpt 2 (1, 0, 3)%R), nil. split; [reflexivity|]. split; [reflexivity|].
  intros H. injection H. intros; lra.
Qed.
Example ex_pts_good : ~ origin_before_other ex_pts.
Proof.
  intros (l1 & p & l2 & q & l3 & E & Hp & Hq). unfold ex_pts in E. unfold at_origin in *.
  destruct l1 as [|? [|? [|? l1]]]; injection E; intros; subst; cbn [pp] in *;
   try (injection Hp; intros; lra); try (destruct l2; discriminate); destruct l1; discriminate.
Qed.

(* ---- C08 ---- *)
(* the code's polynomial vocabulary is the textbook one *)
Theorem C08_solid_is_sph_harm : forall l m r theta phi, (Z.abs m <= l)%Z -> (0 <= theta <= PI)%R ->
  rsolid l m (r * sin theta * cos phi, r * sin theta * sin phi, r * cos theta)%R
  = RtoC (r ^ Z.to_nat l) * Cconj (sph_harm m l phi theta).
Proof. intros. symmetry. now apply sph_harm_solid. Qed.
Print Assumptions C08_solid_is_sph_harm.
Theorem C08_qmoments : forall L ma, (0 <= L)%Z -> ~ origin_before_other ma ->
  exists q, qmoments L ma = Ok q /\ deg q = L /\ holds q (inner_moment ma).
Proof. exact qmoments_good. Qed.
Print Assumptions C08_qmoments.
(* the same in spherical coordinates: sum of m r^l conj(Y_lm(theta,phi)) *)
Theorem C08_qmoments_spherical : forall L S, (0 <= L)%Z -> (forall s, In s S -> 0 <= s_th s <= PI)%R ->
  ~ origin_before_other (map cart S) ->
  exists q, qmoments L (map cart S) = Ok q /\ deg q = L /\
    holds q (fun l m => lsum (fun s => RtoC (s_m s * s_r s ^ Z.to_nat l) * Cconj (sph_harm m l (s_ph s) (s_th s))) S).
Proof.
  intros L S HL Ht Hb. destruct (qmoments_good L _ HL Hb) as (q & E & D & H). exists q. split; [exact E|]. split; [exact D|].
  eapply holds_deg_ext; [|exact H]. intros. now apply inner_sph.
Qed.
Print Assumptions C08_qmoments_spherical.
Theorem C08_qmoment_single : forall l m ma, (1 <= l)%Z -> (Z.abs m <= l)%Z -> (forall p, In p ma -> ~ at_origin p) ->
  qmoment l m ma = Ok (inner_moment ma l m).
Proof.
  intros l m ma Hl Hm H. rewrite qmoment_spec by assumption.
  replace (noff ma) with (length ma); [now rewrite Nat.eqb_refl|]. unfold noff. f_equal. symmetry.
  clear Hl Hm. induction ma as [|p ma IH]; [reflexivity|]. cbn [filter].
  rewrite (proj2 (nzp_true p)) by (apply not_origin_norm, H; now left). f_equal. apply IH. intros; apply H; now right.
Qed.
Example C08_nonvacuous : exists q, qmoments 4 ex_pts = Ok q /\ mom q 2 1 = inner_moment ex_pts 2 1.
Proof.
  destruct (qmoments_good 4 ex_pts ltac:(lia) ex_pts_good) as (q & E & D & H & _). exists q. split; [exact E|]. apply H; rewrite ?D; lia.
Qed.

(* ---- C09 ---- *)
Theorem C09_qmoments_index_error_iff : forall L ma, (1 <= L)%Z ->
  (qmoments L ma = Err IndexError <-> origin_before_other ma)
  /\ (forall e, qmoments L ma = Err e -> e = IndexError).
Proof.
  intros L ma HL. destruct (sorted_or_bad ma) as [(l1 & l2 & E & H1 & H2)|Hb].
  - destruct (qmoments_sorted L l1 l2 ltac:(lia) H1 H2) as (q & Eq & _). rewrite <- E in Eq. rewrite Eq.
    split; [|discriminate]. split; [discriminate|]. intros Hb. apply (qmoments_bad L) in Hb; [congruence|exact HL].
  - rewrite (qmoments_bad L ma HL Hb). split; [tauto|congruence].
Qed.
Print Assumptions C09_qmoments_index_error_iff.
(* degree 0 never fails *)
Theorem C09_qmoments_degree0 : forall ma, exists q, qmoments 0 ma = Ok q /\ deg q = 0%Z /\ holds q (inner_moment ma).
Proof. exact qmoments_0. Qed.
(* the single-moment function broadcasts an array with its filtered copy instead *)
Theorem C09_qmoment_value_error_iff : forall l m ma, (1 <= l)%Z -> (Z.abs m <= l)%Z ->
  qmoment l m ma = if (Nat.eqb (noff ma) (length ma) || Nat.eqb (noff ma) 1 || Nat.eqb (length ma) 1)%bool
                   then Ok (inner_moment ma l m) else Err ValueError.
Proof. exact qmoment_spec. Qed.
Print Assumptions C09_qmoment_value_error_iff.
Example C09_witness : qmoments 1 ex_bad = Err IndexError.
Proof. apply qmoments_bad; [lia|exact ex_bad_is_bad]. Qed.

(* ---- C10 ---- *)
Theorem C10_Qmomentsb : forall L ma, (0 <= L)%Z -> (forall p, In p ma -> ~ at_origin p) ->
  deg (Qmomentsb L ma) = L /\ holds (Qmomentsb L ma) (outer_moment ma).
Proof. exact Qmomentsb_good. Qed.
Print Assumptions C10_Qmomentsb.
Theorem C10_outer_spherical : forall S l m, (Z.abs m <= l)%Z ->
  (forall s, In s S -> 0 <= s_th s <= PI /\ 0 < s_r s)%R ->
  outer_moment (map cart S) l m
  = lsum (fun s => RtoC (s_m s / s_r s ^ Z.to_nat (l + 1)) * sph_harm m l (s_ph s) (s_th s)) S.
Proof. exact outer_sph. Qed.
Theorem C10_Qmomentb_single : forall l m ma, (Z.abs m <= l)%Z -> (forall p, In p ma -> ~ at_origin p) ->
  Qmomentb l m ma = outer_moment ma l m.
Proof. exact Qmomentb_good. Qed.
Theorem C10_Qmomentsb_origin_loses_everything : forall L ma l m, (exists p, In p ma /\ at_origin p) ->
  mom (Qmomentsb L ma) l m = 0 /\ Qmomentb l m ma = 0.
Proof.
  intros L ma l m H. split; [now rewrite Qmomentsb_bad|]. unfold Qmomentb. apply exists_origin in H. now rewrite H.
Qed.
Example C10_nonvacuous : forall p, In p (mkpt 2 (1, 0, 3)%R :: nil) -> ~ at_origin p.
Proof. intros p [<-|[]] H. injection H. intros; lra. Qed.

(* ---- C11 (point-mass producers) ---- *)
Theorem C11_point_moments_reality : forall L ma q, (0 <= L)%Z -> qmoments L ma = Ok q ->
  deg q = L /\ reality q /\ corners0 q.
Proof.
  intros L ma q HL E. 
  assert (G : exists q', qmoments L ma = Ok q' /\ deg q' = L /\ holds q' (inner_moment ma)).
  { destruct (Z.eq_dec L 0) as [->|]; [apply qmoments_0|]. apply qmoments_good; [exact HL|]. intros Hb.
    apply (qmoments_bad L) in Hb; [congruence|lia]. }
  destruct G as (q' & E' & D & H). assert (q' = q) by congruence. subst q'. split; [exact D|]. split; [|apply H].
  apply (holds_reality q (inner_moment ma)); [|exact H]. intros; apply inner_symm.
Qed.
Print Assumptions C11_point_moments_reality.
Theorem C11_outer_point_moments_reality : forall L ma, (0 <= L)%Z ->
  reality (Qmomentsb L ma) /\ corners0 (Qmomentsb L ma).
Proof.
  intros L ma HL. destruct (existsb is0 (rlist ma)) eqn:E.
  - rewrite Qmomentsb_bad by (now apply exists_origin). split.
    + intros l m _ _. unfold mom, zeros; cbn [at_]. rewrite Cconj_RtoC. ring.
    + intros l m _ _. reflexivity.
  - unfold Qmomentsb. rewrite E. eapply reflect_reality, half_fill, HL.
Qed.

(* ---- C12 (point-mass producers) ---- *)
Theorem C12_point_monopole : forall L ma q, (0 <= L)%Z -> qmoments L ma = Ok q ->
  mom q 0 0 = RtoC (total_mass ma / sqrt (4 * PI)).
Proof.
  intros L ma q HL E. rewrite <- inner00.
  assert (G : exists q', qmoments L ma = Ok q' /\ deg q' = L /\ holds q' (inner_moment ma)).
  { destruct (Z.eq_dec L 0) as [->|]; [apply qmoments_0|]. apply qmoments_good; [exact HL|]. intros Hb.
    apply (qmoments_bad L) in Hb; [congruence|lia]. }
  destruct G as (q' & E' & D & H). assert (q' = q) by congruence. subst q'. apply H; lia.
Qed.
Print Assumptions C12_point_monopole.

(* ---- C13 ---- *)
(* concatenation, mass scaling and order: both for the returned arrays *)
Theorem C13_additive : forall L a b qa qb qab, (0 <= L)%Z ->
  qmoments L a = Ok qa -> qmoments L b = Ok qb -> qmoments L (a ++ b) = Ok qab ->
  forall l m, (0 <= l <= L)%Z -> (Z.abs m <= L)%Z -> mom qab l m = mom qa l m + mom qb l m.
Proof.
  intros L a b qa qb qab HL Ea Eb Eab l m Hl Hm.
  assert (G : forall ma q, qmoments L ma = Ok q -> deg q = L /\ holds q (inner_moment ma)).
  { intros ma q E. assert (G : exists q', qmoments L ma = Ok q' /\ deg q' = L /\ holds q' (inner_moment ma)).
    { destruct (Z.eq_dec L 0) as [->|]; [apply qmoments_0|]. apply qmoments_good; [exact HL|]. intros Hb.
      apply (qmoments_bad L) in Hb; [congruence|lia]. }
    destruct G as (q' & E' & D & H). assert (q' = q) by congruence. now subst q'. }
  destruct (G _ _ Ea) as (Da & Ha & Ca), (G _ _ Eb) as (Db & Hb & Cb), (G _ _ Eab) as (Dab & Hab & Cab).
  destruct (Z_lt_le_dec l (Z.abs m)).
  - rewrite Ca, Cb, Cab by (rewrite ?Da, ?Db, ?Dab; lia). ring.
  - rewrite Ha, Hb, Hab by (rewrite ?Da, ?Db, ?Dab; lia). apply inner_app.
Qed.
Print Assumptions C13_additive.
Theorem C13_inner_linear_in_mass : forall c pts l m,
  inner_moment (map (scale_mass c) pts) l m = RtoC c * inner_moment pts l m
  /\ outer_moment (map (scale_mass c) pts) l m = RtoC c * outer_moment pts l m.
Proof. intros. split; [apply inner_scale|apply outer_scale]. Qed.
Theorem C13_order_irrelevant : forall L a b, (0 <= L)%Z -> Permutation a b ->
  ~ origin_before_other a -> ~ origin_before_other b ->
  exists qa qb, qmoments L a = Ok qa /\ qmoments L b = Ok qb /\ same qa qb.
Proof.
  intros L a b HL HP Ha Hb. destruct (qmoments_good L a HL Ha) as (qa & Ea & Da & H1).
  destruct (qmoments_good L b HL Hb) as (qb & Eb & Db & H2). exists qa, qb. split; [exact Ea|]. split; [exact Eb|].
  apply (holds_same qa qb (inner_moment a)); [congruence|exact H1|].
  eapply holds_deg_ext; [|exact H2]. intros. apply inner_perm. now apply Permutation_sym.
Qed.
Theorem C13_outer_additive : forall L a b l m, (0 <= L)%Z ->
  (forall p, In p a -> ~ at_origin p) -> (forall p, In p b -> ~ at_origin p) ->
  (0 <= l <= L)%Z -> (Z.abs m <= l)%Z ->
  mom (Qmomentsb L (a ++ b)) l m = mom (Qmomentsb L a) l m + mom (Qmomentsb L b) l m.
Proof.
  intros L a b l m HL Ha Hb Hl Hm.
  destruct (Qmomentsb_good L a HL Ha) as (Da & H1 & _), (Qmomentsb_good L b HL Hb) as (Db & H2 & _).
  destruct (Qmomentsb_good L (a ++ b) HL) as (Dab & H3 & _).
  { intros p Hp. apply in_app_or in Hp. destruct Hp; auto. }
  rewrite H1, H2, H3 by (rewrite ?Da, ?Db, ?Dab; lia). apply outer_app.
Qed.
Theorem C13_mass_scaling_of_arrays : forall L c a, (0 <= L)%Z -> ~ origin_before_other a ->
  exists qa qc, qmoments L a = Ok qa /\ qmoments L (map (scale_mass c) a) = Ok qc
   /\ deg qa = L /\ deg qc = L
   /\ forall l m, (0 <= l <= L)%Z -> (Z.abs m <= l)%Z -> mom qc l m = RtoC c * mom qa l m.
Proof.
  intros L c a HL Ha. destruct (qmoments_good L a HL Ha) as (qa & Ea & Da & H1 & _).
  assert (Hc : ~ origin_before_other (map (scale_mass c) a)).
  { intros (l1 & p & l2 & q & l3 & E & Hp & Hq). apply Ha.
    apply map_eq_app in E. destruct E as (k1 & k2 & -> & <- & E2). apply map_eq_cons in E2.
    destruct E2 as (p0 & k3 & -> & <- & E3). apply map_eq_app in E3. destruct E3 as (k4 & k5 & -> & <- & E5).
    apply map_eq_cons in E5. destruct E5 as (q0 & k6 & -> & <- & <-).
    exists k1, p0, k4, q0, k6. split; [reflexivity|]. split; [exact Hp|exact Hq]. }
  destruct (qmoments_good L _ HL Hc) as (qc & Ec & Dc & H2 & _).
  exists qa, qc. split; [exact Ea|]. split; [exact Ec|]. split; [exact Da|]. split; [exact Dc|].
  intros l m Hl Hm. rewrite H1, H2 by (rewrite ?Da, ?Dc; lia). apply inner_scale.
Qed.

(* ---- C47: Yukawa inner moments ---- *)
(* what imoments returns: the Bessel function of the MAXIMUM order L is used in every row n >= 1 *)
Theorem C47_imoments_uses_max_order : forall L lmbd S, (0 <= L)%Z ->
  (forall s, In s S -> 0 <= s_th s <= PI /\ 0 < s_r s)%R ->
  exists q, imoments spherical_in L lmbd (map cart S) = Ok q /\ deg q = L /\
   forall n m, (1 <= n <= L)%Z -> (Z.abs m <= n)%Z ->
    mom q n m = lsum (fun s => RtoC (s_m s * spherical_in L (s_r s / lmbd)) * Cconj (sph_harm m n (s_ph s) (s_th s))) S.
Proof.
  intros L lmbd S HL H.
  assert (HF : List.Forall (fun p => nzp p = true) (map cart S)).
  { apply Forall_forall. intros p Hp. apply in_map_iff in Hp. destruct Hp as (s & <- & Hs). destruct (H s Hs).
    apply nzp_true. rewrite vnorm_cart by lra. lra. }
  destruct (imoments_sorted spherical_in L lmbd (map cart S) nil HL HF (Forall_nil _)) as (q & E & D & Hq & _).
  rewrite app_nil_r in *. exists q. split; [exact E|]. split; [exact D|].
  intros n m Hn Hm. rewrite Hq by (rewrite ?D; lia). destruct (Z.eqb_spec n 0); [lia|].
  rewrite lsum_map. apply lsum_ext. intros s Hs. destruct (H s Hs) as [Ht Hr].
  rewrite vnorm_cart by lra. cbn [cart pm]. f_equal.
  assert (HY := Yp_rsolid n m (cart s) Hm ltac:(rewrite vnorm_cart by lra; lra)).
  rewrite vnorm_cart in HY by lra.
  assert (HZ := sph_harm_solid n m (s_r s) (s_th s) (s_ph s) Hm Ht).
  assert (Hne : RtoC (s_r s ^ Z.to_nat n) <> 0) by (apply RtoC_neq0, pow_nonzero; lra).
  transitivity (RtoC (s_r s ^ Z.to_nat n) * Cconj (Yp m n (cart s)) / RtoC (s_r s ^ Z.to_nat n)); [field; exact Hne|].
  rewrite HY. unfold cart at 1; cbn [pp rsolid]. rewrite <- HZ. field. exact Hne.
Qed.
Print Assumptions C47_imoments_uses_max_order.
Lemma e_lt_3 : (exp 1 < 3)%R.
Proof.
  assert (H := exp_ineq1 (- / 6) ltac:(lra)). assert (H0 := exp_pos (- / 6)).
  assert (E : (exp 1 * exp (- / 6) ^ 6 = 1)%R).
  { rewrite <- Rpower_pow by apply exp_pos. unfold Rpower. rewrite ln_exp, <- exp_plus. transitivity (exp 0); [f_equal; simpl; lra|apply exp_0]. }
  assert (G : ((5 / 6) ^ 6 <= exp (- / 6) ^ 6)%R) by (apply pow_incr; lra).
  assert (Hp := exp_pos 1). apply Rnot_le_lt. intros H3.
  assert (3 * (5 / 6) ^ 6 <= 1)%R by (rewrite <- E; apply Rmult_le_compat; lra).
  lra.
Qed.
(* so imoments(2,..) row 1 is not the order-1 Yukawa moment *)
Theorem C47_imoments_refuted : exists L lmbd S q,
  imoments spherical_in L lmbd (map cart S) = Ok q /\ (1 < L)%Z /\ (0 < lmbd)%R
  /\ (forall s, In s S -> 0 <= s_th s <= PI /\ 0 < s_r s)%R
  /\ mom q 1 0 <> yuk_moment lmbd S 1 0.
Proof.
  exists 2%Z, 1%R, (mksph 1 1 0 0 :: nil).
  assert (HS : forall s, In s (mksph 1 1 0 0 :: nil) -> (0 <= s_th s <= PI /\ 0 < s_r s)%R).
  { intros s [<-|[]]. cbn. assert (H := PI_RGT_0). lra. }
  destruct (C47_imoments_uses_max_order 2 1 _ ltac:(lia) HS) as (q & E & D & H). exists q. split; [exact E|].
  split; [lia|]. split; [lra|]. split; [exact HS|].
  rewrite H by lia. unfold yuk_moment. cbn [lsum s_m s_r s_ph s_th]. intros E2.
  assert (HY : sph_harm 0 1 0 0 <> 0).
  { unfold sph_harm. cbn [Z.ltb Z.compare Z.abs]. rewrite Rmult_0_l, cexpi_0, Cmult_1_r. apply RtoC_neq0.
    change (Plm 1 0 (cos 0)) with (Plm 1 0 (cos 0)). unfold Plm. cbn. rewrite cos_0.
    apply Rmult_integral_contrapositive_currified; [|change (Pos.to_nat 1) with 1%nat; cbn; intros Hx; lra].
    apply Rgt_not_eq, sqrt_lt_R0. unfold zfact. simpl. assert (Hp := PI_RGT_0).
    replace ((2 * 1 + 1) / (4 * PI) * (1 / 1))%R with (3 / (4 * PI))%R by (field; lra). apply Rdiv_lt_0_compat; lra. }
  assert (HY' : Cconj (sph_harm 0 1 0 0) <> 0).
  { intros E0. apply HY. rewrite <- (Cconj_conj (sph_harm _ _ _ _)), E0. apply Cconj_RtoC. }
  set (Y := Cconj _) in *. rewrite !Cplus_0_r in E2.
  assert (E3 : RtoC (1 * spherical_in 2 (1 / 1)) = RtoC (1 * spherical_in 1 (1 / 1))).
  { transitivity (RtoC (1 * spherical_in 2 (1 / 1)) * Y / Y); [field; exact HY'|]. rewrite E2. field. exact HY'. }
  injection E3. unfold spherical_in. change (Z.to_nat 2) with 2%nat. change (Z.to_nat 1) with 1%nat.
  cbn [sph_in_pair fst snd]. unfold sinh, cosh. replace (1 / 1)%R with 1%R by field.
  replace (2 * INR 1 + 1)%R with 3%R by (cbn [INR]; ring). intros E4.
  assert (Hp := exp_pos 1). assert (Hi : (exp 1 * exp (- (1)) = 1)%R) by (rewrite <- exp_plus; transitivity (exp 0); [f_equal; ring|apply exp_0]).
  assert (E5 : (exp 1 - 9 * exp (- (1)) = 0)%R) by (revert E4; generalize (exp 1) (exp (- (1))); intros; lra).
  assert (E6 : (exp 1 * exp 1 = 9)%R) by nra.
  assert (HL := e_lt_3). nra.
Qed.
Print Assumptions C47_imoments_refuted.
