(* Proofs about the torques of multipoleLib.py *)
From Coq Require Import String.
From Verif Require Export MultipoleProofs Props_TransRec Props_Rotations.
From Verif Require Import Cplx.
Open Scope C_scope.

(* ---- specification vocabulary ---- *)
(* sum of a column (all degrees, order m) and of the whole array *)
Definition col (a : marr) (m : Z) : C := zsum 0 (deg a + 1) (fun l => mom a l m).
Definition total (a : marr) : C := zsum (- deg a) (deg a + 1) (col a).

(* ---- nc, ns, torques_at_angle ---- *)
Definition ncns (L : Z) (nlm : marr) (nc ns : cvec) : Prop :=
  vlen nc = (L + 1)%Z /\ vlen ns = (L + 1)%Z /\
  forall k, vat nc k = col nlm k + col nlm (- k) /\ vat ns k = col nlm k - col nlm (- k).
Lemma nc_ns_ok L nlm : (0 <= L)%Z -> deg nlm = L -> exists nc ns, nc_ns L nlm = Ok (nlm, nc, ns) /\ ncns L nlm nc ns.
Proof.
  intros HL D. unfold nc_ns, vop. cbn [vlen from_ back_ colsum]. rewrite D.
  replace (2 * L + 1 - L)%Z with (L + 1)%Z by ring. rewrite Z.eqb_refl. cbn [bind].
  do 2 eexists. split; [reflexivity|]. split; [reflexivity|]. split; [reflexivity|]. intros k. cbn [vat].
  unfold from_, back_, colsum. cbn [vat]. unfold col, mom. rewrite D. split; reflexivity.
Qed.
Lemma angle_ok L nlm nc ns phi (outer : bool) : (0 <= L)%Z -> ncns L nlm nc ns ->
  (forall k, (0 <= k <= L)%Z -> col nlm (- k) = Cconj (col nlm k)) ->
  torques_at_angle nc ns phi outer
  = Ok (Re (zsum (- L) (L + 1) (fun m => cexpi (- ((if outer then -1 else 1) * IZR m * phi)) * col nlm m))).
Proof.
  intros HL (V1 & V2 & V) Hc. unfold torques_at_angle. rewrite V1, V2.
  rewrite (proj2 (Z.leb_gt (L + 1) 0)), (proj2 (Z.ltb_ge (L + 1) (L + 1))) by lia. cbn [orb].
  replace (L + 1 - 1 + 1)%Z with (L + 1)%Z by ring. f_equal.
  set (sg := (if outer then -1 else 1)%R).
  set (f := fun m => cexpi (- (sg * IZR m * phi)) * col nlm m).
  match goal with |- (fst ?x + snd ?x)%R = _ => assert (G : (fst x + snd x)%R = Re (zsum (1 - (L + 1)) (L + 1) f)) end.
  { apply (zfor_ind (fun b (s : R * R) => (fst s + snd s)%R = Re (zsum (1 - b) b f)) 1 (L + 1)); [lia| |].
    - change (zsum (1 - 1) 1 f) with (zsum 0 (0 + 1) f). rewrite zsum_one. unfold f. rewrite Rmult_0_r, Rmult_0_l, Ropp_0, cexpi_0, Cmult_1_l.
      destruct (V 0%Z) as [E1 E2]. rewrite E1, E2. change (- 0)%Z with 0%Z. destruct (col nlm 0) as [u v]. unfold Cminus, Cplus, Copp, Re, Im. cbn [fst snd]. field.
    - intros k [c s] Hk IH. cbn [fst snd] in *. destruct (V k) as [E1 E2]. rewrite E1, E2.
      rewrite zsum_first by lia. replace (1 - (k + 1) + 1)%Z with (1 - k)%Z by ring. rewrite zsum_last by lia.
      rewrite !Re_plus, <- IH. replace (1 - (k + 1))%Z with (- k)%Z by ring. unfold f. rewrite Hc by lia.
      rewrite opp_IZR. replace (- (sg * - IZR k * phi))%R with (sg * IZR k * phi)%R by ring.
      destruct (col nlm k) as [a b]. unfold cexpi. cbn. rewrite cos_neg, sin_neg. ring. }
  rewrite G. replace (1 - (L + 1))%Z with (- L)%Z by ring. reflexivity.
Qed.

(* ---- the elementwise products ---- *)
Definition tor (L : Z) (K : C) (a b nlm : marr) (nc ns : cvec) : Prop :=
  deg nlm = L /\ (forall l m, mom nlm l m = K * (mom a l m * mom b l m)) /\ ncns L nlm nc ns.
Definition Qw (Q : marr) : marr := mkarr (deg Q) (fun i j => at_ Q i j * RtoC (1 / IZR (2 * i + 1) * IZR (j - deg Q))).
Lemma Qw_mom Q l m : mom (Qw Q) l m = mom Q l m * RtoC (1 / IZR (2 * l + 1) * IZR m).
Proof. unfold mom, Qw. cbn [deg at_]. now replace (deg Q + m - deg Q)%Z with m by ring. Qed.
Lemma tor_fin L K a b : (0 <= L)%Z -> deg a = L -> deg b = L -> exists nlm nc ns,
  (do nlm <- bmul (cscal K a) b; nc_ns L nlm) = Ok (nlm, nc, ns) /\ tor L K a b nlm nc ns.
Proof.
  intros HL Da Db. unfold bmul, cscal. cbn [deg at_]. rewrite Da, Db, Z.eqb_refl. cbn [bind].
  edestruct (nc_ns_ok L) as (nc & ns & E & H); [assumption| |rewrite E]; [reflexivity|].
  do 3 eexists. split; [reflexivity|]. split; [reflexivity|]. split; [|exact H]. intros l m. unfold mom. cbn [deg at_]. rewrite Da, Db. ring.
Qed.
Definition KG (c : R) : C := RtoC (- 4 * PI * c) * Ci.
Lemma torque_lm_ok q Q c : (0 <= deg q)%Z -> deg Q = deg q -> exists nlm nc ns,
  torque_lm q Q c = Ok (nlm, nc, ns) /\ tor (deg q) (KG c) q (Qw Q) nlm nc ns.
Proof.
  intros HL D. unfold torque_lm. rewrite D, Z.min_id. unfold bmul at 1, cscal, lm_outer. cbn [deg at_]. rewrite Z.eqb_refl. cbn [bind].
  unfold bmul. cbn [deg at_]. rewrite D, Z.eqb_refl. cbn [bind].
  edestruct (nc_ns_ok (deg q)) as (nc & ns & E & H); [assumption| |rewrite E]; [reflexivity|].
  do 3 eexists. split; [reflexivity|]. split; [reflexivity|]. split; [|exact H]. intros l m. rewrite Qw_mom. unfold mom. cbn [deg at_]. rewrite D.
  replace (deg q + m - deg q)%Z with m by ring. unfold KG. ring.
Qed.
Lemma total_dot L K a b nlm nc ns : (0 <= L)%Z -> deg a = L -> tor L K a b nlm nc ns -> corners0 a -> total nlm = K * dot L a b.
Proof.
  intros HL Da (D & H & _) Hc. unfold total, col, dot. rewrite D, zsum_swap, <- zsum_scal_l. apply zsum_ext. intros l Hl.
  rewrite <- zsum_scal_l. rewrite (zsum_sub (- L) (L + 1) (- l) (l + 1)).
  - apply zsum_ext. intros m Hm. apply H.
  - lia.
  - lia.
  - intros m H1 H2. rewrite H, Hc by lia. ring.
Qed.
Lemma total_dot_r L K a b nlm nc ns : (0 <= L)%Z -> deg b = L -> tor L K a b nlm nc ns -> corners0 b -> total nlm = K * dot L a b.
Proof.
  intros HL Da (D & H & _) Hc. unfold total, col, dot. rewrite D, zsum_swap, <- zsum_scal_l. apply zsum_ext. intros l Hl.
  rewrite <- zsum_scal_l. rewrite (zsum_sub (- L) (L + 1) (- l) (l + 1)).
  - apply zsum_ext. intros m Hm. apply H.
  - lia.
  - lia.
  - intros m H1 H2. rewrite H, Hc by lia. ring.
Qed.
(* array with order m multiplied by w m *)
Definition wt (w : Z -> C) (q : marr) : marr := mkarr (deg q) (fun i j => w (j - deg q)%Z * at_ q i j).
Lemma wt_mom w q l m : mom (wt w q) l m = w m * mom q l m.
Proof. unfold mom, wt. cbn [deg at_]. now replace (deg q + m - deg q)%Z with m by ring. Qed.
Lemma wt_corners w q : corners0 q -> corners0 (wt w q).
Proof. intros H l m Hl Hm. rewrite wt_mom, H by assumption. ring. Qed.
Lemma wt_reality w q : (forall m, w (- m)%Z = Cconj (w m)) -> reality q -> reality (wt w q).
Proof. intros Hw H l m Hl Hm. rewrite !wt_mom, Hw, H by assumption. rewrite Cconj_mult. ring. Qed.
Lemma dot_wt L K w a b nlm nc ns : (0 <= L)%Z -> deg a = L -> tor L K a b nlm nc ns -> corners0 a ->
  K * dot L (wt w a) b = zsum (- L) (L + 1) (fun m => w m * col nlm m).
Proof.
  intros HL Da (D & H & _) Hc. unfold dot.
  transitivity (zsum (- L) (L + 1) (fun m => zsum 0 (L + 1) (fun l => w m * mom nlm l m))).
  - rewrite zsum_swap. rewrite <- zsum_scal_l. apply zsum_ext. intros l Hl. symmetry. rewrite <- zsum_scal_l.
    rewrite (zsum_sub (- L) (L + 1) (- l) (l + 1)).
    + apply zsum_ext. intros m Hm. rewrite H, wt_mom. ring.
    + lia.
    + lia.
    + intros m H1 H2. rewrite H, Hc by lia. ring.
  - apply zsum_ext. intros m Hm. unfold col. rewrite D. now rewrite zsum_scal_l.
Qed.
(* reality of the columns from reality of the total for every symmetric array *)
Lemma cols_conj L K a b nlm nc ns : (0 <= L)%Z -> deg a = L -> tor L K a b nlm nc ns -> corners0 a -> reality a ->
  (forall p, deg p = L -> reality p -> corners0 p -> Im (K * dot L p b) = 0%R) ->
  forall k, (0 <= k <= L)%Z -> col nlm (- k) = Cconj (col nlm k).
Proof.
  intros HL Da Ht Hc Hr Hp k Hk.
  assert (G : forall u : C, Im ((if (k =? 0)%Z then Cconj u else u) * col nlm k + (if (k =? 0)%Z then u else Cconj u) * col nlm (- k)) = 0%R).
  { intros u. set (w := fun m : Z => (if (m =? k)%Z then (if (k =? 0)%Z then Cconj u else u) else 0) + (if (m =? - k)%Z then (if (k =? 0)%Z then u else Cconj u) else 0)).
    assert (E := dot_wt L K w a b nlm nc ns HL Da Ht Hc).
    rewrite <- (Hp (wt w a)); [|exact Da| |now apply wt_corners].
    - rewrite E. f_equal. rewrite (zsum_ext _ _ _ (fun m => (if (m =? k)%Z then (if (k =? 0)%Z then Cconj u else u) else 0) * col nlm m + (if (m =? - k)%Z then (if (k =? 0)%Z then u else Cconj u) else 0) * col nlm m)) by (intros; unfold w; ring).
      rewrite zsum_plus. f_equal.
      + rewrite (zsum_single _ _ k); [now rewrite Z.eqb_refl|lia|]. intros m Hm Hm'. rewrite (proj2 (Z.eqb_neq m k)) by lia. ring.
      + rewrite (zsum_single _ _ (- k)%Z); [now rewrite Z.eqb_refl|lia|]. intros m Hm Hm'. rewrite (proj2 (Z.eqb_neq m (- k))) by lia. ring.
    - apply wt_reality; [|exact Hr]. intros m. unfold w. rewrite Cconj_plus.
      destruct (Z.eqb_spec k 0), (Z.eqb_spec m k), (Z.eqb_spec m (- k)), (Z.eqb_spec (- m) k), (Z.eqb_spec (- m) (- k)); try lia; rewrite ?Cconj_conj, ?Cconj_RtoC; ring. }
  assert (G1 := G (RtoC 1)). assert (G2 := G Ci).
  destruct (Z.eqb_spec k 0) as [->|].
  - change (- 0)%Z with 0%Z in *. destruct (col nlm 0) as [x y]. cbn in G1. apply C_eq; cbn; lra.
  - destruct (col nlm k) as [x y], (col nlm (- k)) as [x' y']. cbn in G1, G2. apply C_eq; cbn; lra.
Qed.

(* ---- transposes ---- *)
Lemma dot_sym L a b : dot L a b = dot L b a.
Proof. unfold dot. apply zsum_ext. intros l _. apply zsum_ext. intros m _. ring. Qed.
Lemma dot_ext L a a' b b' : (forall l m, (0 <= l <= L)%Z -> (Z.abs m <= l)%Z -> mom a l m = mom a' l m) ->
  (forall l m, (0 <= l <= L)%Z -> (Z.abs m <= l)%Z -> mom b l m = mom b' l m) -> dot L a b = dot L a' b'.
Proof. intros H H'. unfold dot. apply zsum_ext. intros l Hl. apply zsum_ext. intros m Hm. now rewrite H, H' by lia. Qed.
Lemma rds_T q Q ds ct : (0 <= deg q)%Z -> deg Q = deg q -> mlen ds = (deg q + 1)%Z ->
  dot (deg q) (rotate_qlm_Ds q ds ct) Q = dot (deg q) q (rotate_qlm_Ds_right Q ds ct).
Proof.
  intros HL HQ Hl. set (D := fun l m' m => mget ds l (l + m')%Z (l + m)%Z).
  destruct (Ds_mom q ds ct D HL Hl) as (D2 & A2 & B2); [reflexivity|].
  destruct (Ds_right_mom Q ds ct D) as (D3 & A3 & B3); [lia|lia|reflexivity|]. cbv zeta in *.
  unfold dot. apply zsum_ext. intros l Hl'. destruct (Z.eq_dec l 0) as [->|].
  - apply zsum_ext. intros m Hm. now rewrite B2, B3 by lia.
  - transitivity (zsum (- l) (l + 1) (fun m => zsum (- l) (l + 1) (fun k => (if ct then Cconj (D l k m) else D l m k) * mom q l k * mom Q l m))).
    + apply zsum_ext. intros m Hm. rewrite A2 by lia. unfold act, Cdiv. rewrite <- zsum_scal_r. reflexivity.
    + rewrite zsum_swap. apply zsum_ext. intros k Hk. rewrite A3 by lia. unfold act.
      rewrite <- zsum_scal_l. apply zsum_ext. intros m Hm. destruct ct; ring.
Qed.
Lemma rds_TL L q Q ds ct : (0 <= L)%Z -> deg q = L -> deg Q = L -> mlen ds = (L + 1)%Z ->
  dot L (rotate_qlm_Ds q ds ct) Q = dot L q (rotate_qlm_Ds_right Q ds ct).
Proof. intros HL <- H1 H2. now apply rds_T. Qed.
Lemma rds_deg q ds ct : (0 <= deg q)%Z -> deg (rotate_qlm_Ds q ds ct) = deg q /\ deg (rotate_qlm_Ds_right q ds ct) = deg q.
Proof.
  intros HL. destruct (Z.eq_dec (mlen ds) (deg q + 1)) as [E|E].
  - set (D := fun l m' m => mget ds l (l + m')%Z (l + m)%Z). split.
    + now destruct (Ds_mom q ds ct D HL E) as (D2 & A2 & B2).
    + now destruct (Ds_right_mom q ds ct D) as (D3 & A3 & B3).
  - destruct (C27_mismatch_returns_input q ds ct E) as [E1 E2]. now rewrite E1, E2.
Qed.
Definition realmats (ms : mats) (L : Z) : Prop := forall m i j, (0 <= m)%Z -> (m <= i <= L)%Z -> (m <= j <= L)%Z ->
  Im (mget ms m (i - m)%Z (j - m)%Z) = 0%R.
Lemma atm_T q Q ms b : (0 <= deg q)%Z -> deg Q = deg q -> mlen ms = (deg q + 1)%Z -> (b = true -> realmats ms (deg q)) ->
  exists q' Q', apply_trans_mat q ms b = Ok q' /\ apply_trans_mat_right Q ms b = Ok Q' /\ deg q' = deg q /\ deg Q' = deg q /\
  dot (deg q) q' Q = dot (deg q) q Q'.
Proof.
  intros HL HQ Hl Hb.
  destruct (atm_mom q ms b HL Hl) as (x & Ex & Dx & [Hx _]).
  destruct (atmr_mom Q ms b ltac:(lia) ltac:(lia)) as (y & Ey & Dy & [Hy _]).
  exists x, y. split; [exact Ex|]. split; [exact Ey|]. split; [exact Dx|]. split; [lia|].
  unfold dot. rewrite !dot_cols by lia. rewrite (zsum_rev (- deg q) (deg q + 1) (fun m => zsum (Z.abs m) (deg q + 1) (fun l => mom q l m * mom y l m))).
  replace (1 - (deg q + 1))%Z with (- deg q)%Z by ring. replace (1 - - deg q)%Z with (deg q + 1)%Z by ring.
  destruct b.
  - apply zsum_ext. intros m Hm. rewrite Z.abs_opp.
    transitivity (zsum (Z.abs m) (deg q + 1) (fun l => zsum (Z.abs m) (deg q + 1) (fun k => mget ms (Z.abs m) (l - Z.abs m)%Z (k - Z.abs m)%Z * mom q k (- m) * mom Q l m))).
    + apply zsum_ext. intros l Hl'. rewrite Hx by lia. unfold coax_val. rewrite Z.abs_opp, <- zsum_scal_r. apply zsum_ext. intros k Hk. f_equal. f_equal.
      unfold cj. destruct (- m <? 0)%Z; [|reflexivity]. apply Cconj_fix_real, Hb; auto; lia.
    + rewrite zsum_swap. apply zsum_ext. intros k Hk. rewrite Hy by lia. unfold coax_val. rewrite Z.opp_involutive, HQ, <- zsum_scal_l. apply zsum_ext. intros l Hl'. unfold ttrans.
      replace (cj m (mget ms (Z.abs m) (l - Z.abs m)%Z (k - Z.abs m)%Z)) with (mget ms (Z.abs m) (l - Z.abs m)%Z (k - Z.abs m)%Z); [ring|].
      unfold cj. destruct (m <? 0)%Z; [|reflexivity]. symmetry. apply Cconj_fix_real, Hb; auto; lia.
  - rewrite (zsum_rev (- deg q) (deg q + 1)).
    replace (1 - (deg q + 1))%Z with (- deg q)%Z by ring. replace (1 - - deg q)%Z with (deg q + 1)%Z by ring.
    apply zsum_ext. intros m' Hm'. set (m := (- m')%Z).
    transitivity (zsum (Z.abs m) (deg q + 1) (fun l => zsum (Z.abs m) (deg q + 1) (fun k => cj m (mget ms (Z.abs m) (l - Z.abs m)%Z (k - Z.abs m)%Z) * mom q k m * mom Q l m))).
    + apply zsum_ext. intros l Hl'. rewrite Hx by lia. unfold coax_val. rewrite <- zsum_scal_r. reflexivity.
    + rewrite zsum_swap. apply zsum_ext. intros k Hk. rewrite Hy by lia. unfold coax_val. rewrite HQ, <- zsum_scal_l. apply zsum_ext. intros. unfold ttrans. ring.
Qed.
Lemma SR_real L d ds : transl_newt_z_SR L d = Ok ds -> realmats ds L.
Proof. unfold transl_newt_z_SR. destruct (is0 d); [discriminate|]. intros E. injection E as <-. intros m i j Hm Hi Hj. reflexivity. Qed.
Lemma imul_Qw Q : imul Q (lm_outer (deg Q)) = Ok (Qw Q).
Proof. unfold imul. cbn [deg lm_outer]. rewrite Z.eqb_refl. reflexivity. Qed.
Lemma RR_ex L d : d <> 0%R -> exists ms, transl_newt_z_RR L d = Ok ms /\ mlen ms = (L + 1)%Z.
Proof. intros H. unfold transl_newt_z_RR. rewrite is0_false by assumption. eexists. split; reflexivity. Qed.
Lemma SS_ex L d : d <> 0%R -> exists ms, transl_newt_z_SS L d = Ok ms /\ mlen ms = (L + 1)%Z.
Proof. intros H. unfold transl_newt_z_SS. rewrite is0_false by assumption. eexists. split; reflexivity. Qed.
Lemma SR_ex L d : d <> 0%R -> exists ms, transl_newt_z_SR L d = Ok ms /\ mlen ms = (L + 1)%Z.
Proof. intros H. unfold transl_newt_z_SR. rewrite is0_false by assumption. eexists. split; reflexivity. Qed.
Lemma wDl_ex L a b g : (1 <= L)%Z -> exists ds, wignerDl L a b g = Ok ds /\ mlen ds = (L + 1)%Z.
Proof. intros H. destruct (wignerDl_DD L a b g H) as (ds & E & Hl & _). eauto. Qed.
Lemma is0_cases x : (x = 0%R /\ is0 x = true) \/ (x <> 0%R /\ is0 x = false).
Proof. destruct (Req_EM_T x 0); [left|right]; split; auto; [now apply is0_true|now apply is0_false]. Qed.

(* the three transposed chains *)
Definition Mii (ds : mats) (v : vec) (p : marr) : res marr := rec_translate_qlm (rotate_qlm_Ds p ds false) v.
Lemma chain_ii Q ds v : (1 <= deg Q)%Z -> mlen ds = (deg Q + 1)%Z -> exists Q'', 
  (if is0 (vnorm v) then Ok (rotate_qlm_Ds_right Q ds false)
        else if on_axis (vnorm v) v then
          do rrms <- transl_newt_z_RR (deg Q) (vnorm v);
          do Q1 <- apply_trans_mat_right Q rrms false;
          Ok (rotate_qlm_Ds_right Q1 ds false)
        else
          do Ds <- wignerDl (deg Q) (- tphi v) (- ttheta v) (- tphi v);
          do rrms <- transl_newt_z_RR (deg Q) (vnorm v);
          do Q2 <- apply_trans_mat_right (rotate_qlm_Ds_right Q Ds true) rrms false;
          Ok (rotate_qlm_Ds_right (rotate_qlm_Ds_right Q2 Ds false) ds false)) = Ok Q'' /\ deg Q'' = deg Q /\
  forall p, deg p = deg Q -> exists p2, Mii ds v p = Ok p2 /\ dot (deg Q) p Q'' = dot (deg Q) p2 Q.
Proof.
  intros HL Hds. unfold Mii, rec_translate_qlm.
  assert (Dr : forall p, deg p = deg Q -> deg (rotate_qlm_Ds p ds false) = deg Q) by (intros p Hp; rewrite (proj1 (rds_deg p ds false ltac:(lia))); exact Hp).
  destruct (is0_cases (vnorm v)) as [[E0 ->]|[E0 ->]].
  { eexists. split; [reflexivity|]. split; [apply rds_deg; lia|]. intros p Hp. eexists. split; [reflexivity|]. rewrite (rds_TL (deg Q) p Q ds false) by (assumption || lia). reflexivity. }
  destruct (RR_ex (deg Q) (vnorm v) E0) as (rr & Er & Hr).
  destruct (on_axis (vnorm v) v).
  - rewrite Er. cbn [bind].
    destruct (atmr_mom Q rr false ltac:(lia) Hr) as (Q1 & E1 & D1 & _). rewrite E1. cbn [bind]. eexists. split; [reflexivity|].
    split; [rewrite (proj2 (rds_deg Q1 ds false ltac:(lia))); exact D1|]. intros p Hp.
    assert (Hd := Dr p Hp). rewrite Hd, Er. cbn [bind].
    destruct (atm_T (rotate_qlm_Ds p ds false) Q rr false ltac:(lia) ltac:(lia) ltac:(lia) ltac:(discriminate)) as (x & y & Ex & Ey & Dx & Dy & Exy).
    rewrite E1 in Ey. injection Ey as <-. exists x. split; [exact Ex|]. rewrite Hd in Exy. rewrite Exy. rewrite (rds_TL (deg Q) p Q1 ds false) by (assumption || lia). reflexivity.
  - destruct (wDl_ex (deg Q) (- tphi v) (- ttheta v) (- tphi v) HL) as (Ds & ED & HD). rewrite ED. cbn [bind]. rewrite Er. cbn [bind].
    assert (DR : deg (rotate_qlm_Ds_right Q Ds true) = deg Q) by (apply rds_deg; lia).
    destruct (atmr_mom (rotate_qlm_Ds_right Q Ds true) rr false ltac:(lia) ltac:(lia)) as (Q2 & E2 & D2 & _). rewrite E2. cbn [bind]. eexists. split; [reflexivity|].
    assert (DR2 : deg (rotate_qlm_Ds_right Q2 Ds false) = deg Q) by (rewrite (proj2 (rds_deg Q2 Ds false ltac:(lia))); lia).
    split; [rewrite (proj2 (rds_deg (rotate_qlm_Ds_right Q2 Ds false) ds false ltac:(lia))); exact DR2|]. intros p Hp.
    assert (Hd := Dr p Hp). rewrite Hd, ED. cbn [bind]. rewrite Er. cbn [bind].
    set (p1 := rotate_qlm_Ds p ds false) in *. assert (Dp1 : deg (rotate_qlm_Ds p1 Ds false) = deg Q) by (rewrite (proj1 (rds_deg p1 Ds false ltac:(lia))); lia).
    destruct (atm_T (rotate_qlm_Ds p1 Ds false) (rotate_qlm_Ds_right Q Ds true) rr false ltac:(lia) ltac:(lia) ltac:(lia) ltac:(discriminate)) as (x & y & Ex & Ey & Dx & Dy & Exy).
    rewrite E2 in Ey. injection Ey as <-. rewrite Ex. cbn [bind]. eexists. split; [reflexivity|].
    rewrite Dp1 in Dx, Exy.
    rewrite (rds_TL (deg Q) x Q Ds true) by (assumption || lia). rewrite Exy.
    rewrite (rds_TL (deg Q) p1 Q2 Ds false) by (assumption || lia). unfold p1. rewrite (rds_TL (deg Q) p _ ds false) by (assumption || lia). reflexivity.
Qed.
(* 'inner-outer': off the axis the flip is applied, on the axis it is not *)
Definition Mio (ds : mats) (v : vec) (p : marr) : res marr := rec_translate_q2Q (rotate_qlm_Ds p ds false) v.
Definition noflip (v : vec) : bool := (negb (is0 (vnorm v)) && on_axis (vnorm v) v)%bool.
Lemma fliplr_inv q : same (fliplr (fliplr q)) q.
Proof. split; [reflexivity|]. intros l m Hl Hm. unfold mom, fliplr. cbn [deg at_]. f_equal. ring. Qed.
Lemma chain_io Q ds v : (1 <= deg Q)%Z -> mlen ds = (deg Q + 1)%Z -> exists Q'', 
  (if is0 (vnorm v) then Ok (rotate_qlm_Ds_right Q ds false)
        else if on_axis (vnorm v) v then
          do sms <- transl_newt_z_SR (deg Q) (vnorm v);
          do Q1 <- apply_trans_mat_right Q sms false;
          Ok (rotate_qlm_Ds_right Q1 ds false)
        else
          let phi := tphi v in
          let theta := ttheta v in
          do Ds <- wignerDl (deg Q) (- phi) (- theta) (- phi);
          do sms <- transl_newt_z_SR (deg Q) (vnorm v);
          do Ds2 <- wignerDl (deg Q) phi (- theta) phi;
          do Q2 <- apply_trans_mat_right (rotate_qlm_Ds_right Q Ds2 true) sms true;
          Ok (rotate_qlm_Ds_right (rotate_qlm_Ds_right Q2 Ds false) ds false)) = Ok Q'' /\ deg Q'' = deg Q /\
  forall p, deg p = deg Q -> exists p2, Mio ds v p = Ok p2 /\
    dot (deg Q) p Q'' = dot (deg Q) (if noflip v then fliplr p2 else p2) Q.
Proof.
  intros HL Hds. unfold Mio, rec_translate_q2Q, noflip.
  assert (Dr : forall p, deg p = deg Q -> deg (rotate_qlm_Ds p ds false) = deg Q) by (intros p Hp; rewrite (proj1 (rds_deg p ds false ltac:(lia))); exact Hp).
  destruct (is0_cases (vnorm v)) as [[E0 ->]|[E0 ->]].
  { cbn [negb andb]. eexists. split; [reflexivity|]. split; [apply rds_deg; lia|]. intros p Hp. eexists. split; [reflexivity|]. rewrite (rds_TL (deg Q) p Q ds false) by (assumption || lia). reflexivity. }
  destruct (SR_ex (deg Q) (vnorm v) E0) as (rr & Er & Hr). cbn [negb andb].
  destruct (on_axis (vnorm v) v).
  - rewrite Er. cbn [bind].
    destruct (atmr_mom Q rr false ltac:(lia) Hr) as (Q1 & E1 & D1 & _). rewrite E1. cbn [bind]. eexists. split; [reflexivity|].
    split; [rewrite (proj2 (rds_deg Q1 ds false ltac:(lia))); exact D1|]. intros p Hp.
    assert (Hd := Dr p Hp). rewrite Hd, Er. cbn [bind].
    destruct (atm_T (rotate_qlm_Ds p ds false) Q rr false ltac:(lia) ltac:(lia) ltac:(lia) ltac:(discriminate)) as (x & y & Ex & Ey & Dx & Dy & Exy).
    rewrite E1 in Ey. injection Ey as <-. exists (fliplr x). split.
    + revert Ex. unfold apply_trans_mat. destruct (negb _); [discriminate|]. intros Ex. injection Ex as <-. reflexivity.
    + rewrite Hd in Exy. rewrite (dot_ext (deg Q) (fliplr (fliplr x)) x Q Q); [|intros l m Hl Hm; apply fliplr_inv; cbn [deg fliplr]; lia|reflexivity].
      rewrite Exy. rewrite (rds_TL (deg Q) p Q1 ds false) by (assumption || lia). reflexivity.
  - cbv zeta. destruct (wDl_ex (deg Q) (- tphi v) (- ttheta v) (- tphi v) HL) as (Ds & ED & HD). rewrite ED. cbn [bind]. rewrite Er. cbn [bind].
    destruct (wDl_ex (deg Q) (tphi v) (- ttheta v) (tphi v) HL) as (Ds2 & ED2 & HD2). rewrite ED2. cbn [bind].
    assert (DR : deg (rotate_qlm_Ds_right Q Ds2 true) = deg Q) by (apply rds_deg; lia).
    destruct (atmr_mom (rotate_qlm_Ds_right Q Ds2 true) rr true ltac:(lia) ltac:(lia)) as (Q2 & E2 & D2 & _). rewrite E2. cbn [bind]. eexists. split; [reflexivity|].
    assert (DR2 : deg (rotate_qlm_Ds_right Q2 Ds false) = deg Q) by (rewrite (proj2 (rds_deg Q2 Ds false ltac:(lia))); lia).
    split; [rewrite (proj2 (rds_deg (rotate_qlm_Ds_right Q2 Ds false) ds false ltac:(lia))); exact DR2|]. intros p Hp.
    assert (Hd := Dr p Hp). rewrite Hd, ED. cbn [bind]. rewrite Er. cbn [bind].
    set (p1 := rotate_qlm_Ds p ds false) in *. assert (Dp1 : deg (rotate_qlm_Ds p1 Ds false) = deg Q) by (rewrite (proj1 (rds_deg p1 Ds false ltac:(lia))); lia).
    destruct (atm_T (rotate_qlm_Ds p1 Ds false) (rotate_qlm_Ds_right Q Ds2 true) rr true ltac:(lia) ltac:(lia) ltac:(lia)) as (x & y & Ex & Ey & Dx & Dy & Exy).
    { intros _. rewrite Dp1. eapply SR_real; eassumption. }
    rewrite E2 in Ey. injection Ey as <-. rewrite Ex. cbn [bind]. rewrite ED2. cbn [bind]. eexists. split; [reflexivity|].
    rewrite Dp1 in Dx, Exy.
    rewrite (rds_TL (deg Q) x Q Ds2 true) by (assumption || lia). rewrite Exy.
    rewrite (rds_TL (deg Q) p1 Q2 Ds false) by (assumption || lia). unfold p1. rewrite (rds_TL (deg Q) p _ ds false) by (assumption || lia). reflexivity.
Qed.
(* 'outer-outer': off the axis the y component of the displacement has the wrong sign *)
Definition mirror (v : vec) : vec := let '(x, y, z) := v in (x, - y, z)%R.
Lemma mirror_norm v : vnorm (mirror v) = vnorm v.
Proof. destruct v as [[x y] z]. unfold mirror, vnorm. f_equal. ring. Qed.
Lemma euler_mirror v : vnorm v <> 0%R -> euler (- tphi v) (ttheta v) (- tphi v) (0, 0, vnorm v)%R = mirror v.
Proof.
  intros H. assert (E := euler_axis v H). revert E. generalize (tphi v), (ttheta v), (vnorm v). clear H. intros ph th r.
  destruct v as [[x y] z]. unfold euler, yrot, zrot, mirror. rewrite cos_neg, sin_neg.
  generalize (cos ph), (sin ph), (cos th), (sin th). intros a b c d E. injection E as <- <- <-. vsplit; ring.
Qed.
Lemma mirror_axis v : on_axis (vnorm (mirror v)) (mirror v) = on_axis (vnorm v) v.
Proof. rewrite mirror_norm. now destruct v as [[x y] z]. Qed.
Lemma chain_Qlmb Q v ds rr q2 : (1 <= deg Q)%Z -> vnorm v <> 0%R -> wignerDl (deg Q) (- tphi v) (- ttheta v) (- tphi v) = Ok ds ->
  transl_newt_z_SS (deg Q) (vnorm v) = Ok rr -> apply_trans_mat (rotate_qlm_Ds Q ds false) rr false = Ok q2 ->
  deg (rotate_qlm_Ds q2 ds true) = deg Q /\
  holds (rotate_qlm_Ds q2 ds true) (fun L M => RtoC ((2 * IZR L + 1) / nrm L M) * Tout (deg Q) (hQ Q) (mirror v) L M).
Proof.
  intros Hd Ht E Er Eq.
  assert (D1 : deg (rotate_qlm_Ds Q ds false) = deg Q) by (eapply deg_Ds; eauto).
  destruct (SS_holds (rotate_qlm_Ds Q ds false) (vnorm v) ltac:(lia) Ht) as (rr' & q2' & E1 & E2 & D2 & H2). rewrite D1 in *.
  rewrite Er in E1. injection E1 as <-. rewrite Eq in E2. injection E2 as <-.
  destruct (corners_Ds Q _ _ _ ds q2 true Hd E D2 (proj2 H2)) as [D3 C3]. split; [exact D3|]. apply holds_hQ; [|exact C3].
  rewrite D3. intros l m Hl Hm. rewrite (hQ_Ds Q _ _ _ ds q2 true l m Hd E D2 Hl). cbv iota.
  rewrite (rotT_ext _ _ _ _ (rotT (- tphi v) (ttheta v) (- tphi v) (Tout (deg Q) (hQ Q) (mirror v)))).
  - now rewrite (rotT_rotT (- tphi v) (ttheta v) (- tphi v)) by lia.
  - intros k Hk. rewrite (hQ_hold q2 (Tout (deg Q) (hQ (rotate_qlm_Ds Q ds false)) (0, 0, vnorm v)%R)) by (assumption || lia || rewrite D2; lia).
    rewrite (Tout_ext _ _ (rotT (- tphi v) (ttheta v) (- tphi v) (hQ Q))).
    + rewrite Tout_rot by (apply supp_hQ || lia). now rewrite euler_mirror by assumption.
    + intros l' m' Hl'. rewrite (hQ_Ds Q _ _ _ ds Q false l' m' Hd E eq_refl Hl'). cbv iota. now rewrite Ropp_involutive.
Qed.
Definition Moo (ds : mats) (v : vec) (p : marr) : res marr := rec_translate_Qlmb (rotate_qlm_Ds p ds false) (mirror v).
Lemma chain_oo Q ds v : (1 <= deg Q)%Z -> mlen ds = (deg Q + 1)%Z -> exists Q'', 
  (if is0 (vnorm v) then Ok (rotate_qlm_Ds_right Q ds false)
        else if on_axis (vnorm v) v then
          do sms <- transl_newt_z_SS (deg Q) (vnorm v);
          do Q1 <- apply_trans_mat_right Q sms false;
          Ok (rotate_qlm_Ds_right Q1 ds false)
        else
          let phi := tphi v in
          let theta := ttheta v in
          do Ds <- wignerDl (deg Q) (- phi) (- theta) (- phi);
          do sms <- transl_newt_z_SS (deg Q) (vnorm v);
          do Ds2 <- Ok Ds;
          do Q2 <- apply_trans_mat_right (rotate_qlm_Ds_right Q Ds2 true) sms false;
          Ok (rotate_qlm_Ds_right (rotate_qlm_Ds_right Q2 Ds false) ds false)) = Ok Q'' /\ deg Q'' = deg Q /\
  forall p, deg p = deg Q -> exists p2, Moo ds v p = Ok p2 /\
    dot (deg Q) p Q'' = dot (deg Q) p2 Q.
Proof.
  intros HL Hds. unfold Moo.
  assert (Dr : forall p, deg p = deg Q -> deg (rotate_qlm_Ds p ds false) = deg Q) by (intros p Hp; rewrite (proj1 (rds_deg p ds false ltac:(lia))); exact Hp).
  destruct (is0_cases (vnorm v)) as [[E0 Ez]|[E0 Ez]].
  { rewrite Ez. eexists. split; [reflexivity|]. split; [apply rds_deg; lia|]. intros p Hp. unfold rec_translate_Qlmb. rewrite mirror_norm, Ez.
    eexists. split; [reflexivity|]. rewrite (rds_TL (deg Q) p Q ds false) by (assumption || lia). reflexivity. }
  destruct (SS_ex (deg Q) (vnorm v) E0) as (rr & Er & Hr). rewrite Ez.
  destruct (on_axis (vnorm v) v) eqn:Eax.
  - rewrite Er. cbn [bind].
    destruct (atmr_mom Q rr false ltac:(lia) Hr) as (Q1 & E1 & D1 & _). rewrite E1. cbn [bind]. eexists. split; [reflexivity|].
    split; [rewrite (proj2 (rds_deg Q1 ds false ltac:(lia))); exact D1|]. intros p Hp.
    unfold rec_translate_Qlmb. rewrite mirror_axis, Eax, mirror_norm, Ez.
    assert (Hd := Dr p Hp). rewrite Hd, Er. cbn [bind].
    destruct (atm_T (rotate_qlm_Ds p ds false) Q rr false ltac:(lia) ltac:(lia) ltac:(lia) ltac:(discriminate)) as (x & y & Ex & Ey & Dx & Dy & Exy).
    rewrite E1 in Ey. injection Ey as <-. exists x. split; [exact Ex|]. rewrite Hd in Exy. rewrite Exy. rewrite (rds_TL (deg Q) p Q1 ds false) by (assumption || lia). reflexivity.
  - cbv zeta. destruct (wDl_ex (deg Q) (- tphi v) (- ttheta v) (- tphi v) HL) as (Ds & ED & HD). rewrite ED. cbn [bind]. rewrite Er. cbn [bind].
    assert (DR : deg (rotate_qlm_Ds_right Q Ds true) = deg Q) by (apply rds_deg; lia).
    destruct (atmr_mom (rotate_qlm_Ds_right Q Ds true) rr false ltac:(lia) ltac:(lia)) as (Q2 & E2 & D2 & _). rewrite E2. cbn [bind]. eexists. split; [reflexivity|].
    assert (DR2 : deg (rotate_qlm_Ds_right Q2 Ds false) = deg Q) by (rewrite (proj2 (rds_deg Q2 Ds false ltac:(lia))); lia).
    split; [rewrite (proj2 (rds_deg (rotate_qlm_Ds_right Q2 Ds false) ds false ltac:(lia))); exact DR2|]. intros p Hp.
    assert (Hd := Dr p Hp).
    set (p1 := rotate_qlm_Ds p ds false) in *. assert (Dp1 : deg (rotate_qlm_Ds p1 Ds false) = deg Q) by (rewrite (proj1 (rds_deg p1 Ds false ltac:(lia))); lia).
    destruct (atm_T (rotate_qlm_Ds p1 Ds false) (rotate_qlm_Ds_right Q Ds true) rr false ltac:(lia) ltac:(lia) ltac:(lia) ltac:(discriminate)) as (x & y & Ex & Ey & Dx & Dy & Exy).
    rewrite E2 in Ey. injection Ey as <-.
    destruct (chain_Qlmb p1 v Ds rr x) as [C1 C2]; try (rewrite ?Hd; assumption || lia).
    destruct (rec_Qlmb_holds p1 (mirror v) ltac:(lia)) as (p2 & F1 & F2 & F3); [now rewrite mirror_norm|left; lia|].
    exists p2. split; [exact F1|].
    assert (SM : same p2 (rotate_qlm_Ds x Ds true)) by (eapply holds_same; [congruence|exact F3|exact C2]).
    rewrite (dot_ext (deg Q) p2 (rotate_qlm_Ds x Ds true) Q Q); [|intros l m Hl Hm; apply SM; lia|reflexivity].
    rewrite Dp1 in Dx, Exy.
    rewrite (rds_TL (deg Q) x Q Ds true) by (assumption || lia). rewrite Exy.
    rewrite (rds_TL (deg Q) p1 Q2 Ds false) by (assumption || lia). unfold p1. rewrite (rds_TL (deg Q) p _ ds false) by (assumption || lia). reflexivity.
Qed.

(* ---- the translations depend only on the moments ---- *)
Lemma same_hq p p' : same p p' -> forall l m, (0 <= l <= deg p)%Z -> hq p l m = hq p' l m.
Proof. intros [D H] l m Hl. unfold hq. destruct (Z.leb_spec (Z.abs m) l); [|reflexivity]. now rewrite H by lia. Qed.
Lemma same_hQ p p' : same p p' -> forall l m, (0 <= l <= deg p)%Z -> hQ p l m = hQ p' l m.
Proof. intros [D H] l m Hl. unfold hQ. destruct (Z.leb_spec (Z.abs m) l); [|reflexivity]. now rewrite H by lia. Qed.
Lemma rec_qlm_same p p' v r : (1 <= deg p)%Z -> same p p' -> rec_translate_qlm p v = Ok r -> exists r', rec_translate_qlm p' v = Ok r' /\ same r r'.
Proof.
  intros HL S E. destruct (is0_cases (vnorm v)) as [[E0 Ez]|[E0 Ez]].
  - unfold rec_translate_qlm in *. rewrite Ez in *. injection E as <-. eauto.
  - assert (D := proj1 S). destruct (rec_qlm_holds p v ltac:(lia) E0 ltac:(left; lia)) as (x & Ex & Dx & Hx). rewrite E in Ex. injection Ex as <-.
    destruct (rec_qlm_holds p' v ltac:(lia) E0 ltac:(left; lia)) as (y & Ey & Dy & Hy). exists y. split; [exact Ey|].
    eapply holds_same; [congruence|exact Hx|]. eapply holds_deg_ext; [|exact Hy]. intros l m Hl Hm. cbv beta. f_equal.
    rewrite <- D. symmetry. apply Tin_ext. intros. now apply same_hq.
Qed.
Lemma rec_Qlmb_same p p' v r : (1 <= deg p)%Z -> same p p' -> rec_translate_Qlmb p v = Ok r -> exists r', rec_translate_Qlmb p' v = Ok r' /\ same r r'.
Proof.
  intros HL S E. destruct (is0_cases (vnorm v)) as [[E0 Ez]|[E0 Ez]].
  - unfold rec_translate_Qlmb in *. rewrite Ez in *. injection E as <-. eauto.
  - assert (D := proj1 S). destruct (rec_Qlmb_holds p v ltac:(lia) E0 ltac:(left; lia)) as (x & Ex & Dx & Hx). rewrite E in Ex. injection Ex as <-.
    destruct (rec_Qlmb_holds p' v ltac:(lia) E0 ltac:(left; lia)) as (y & Ey & Dy & Hy). exists y. split; [exact Ey|].
    eapply holds_same; [congruence|exact Hx|]. eapply holds_deg_ext; [|exact Hy]. intros l m Hl Hm. cbv beta. f_equal.
    rewrite <- D. symmetry. apply Tout_ext. intros. now apply same_hQ.
Qed.
Lemma rec_q2Q_same p p' v r : (1 <= deg p)%Z -> same p p' -> rec_translate_q2Q p v = Ok r -> exists r', rec_translate_q2Q p' v = Ok r' /\ same r r'.
Proof.
  intros HL S E. destruct (is0_cases (vnorm v)) as [[E0 Ez]|[E0 Ez]].
  - unfold rec_translate_q2Q in *. rewrite Ez in *. injection E as <-. eauto.
  - assert (D := proj1 S). destruct (rec_q2Q_holds p v ltac:(lia) E0 ltac:(left; lia)) as (x & Ex & Dx & Hx). rewrite E in Ex. injection Ex as <-.
    destruct (rec_q2Q_holds p' v ltac:(lia) E0 ltac:(left; lia)) as (y & Ey & Dy & Hy). exists y. split; [exact Ey|].
    eapply holds_same; [congruence|exact Hx|]. eapply holds_deg_ext; [|exact Hy]. intros l m Hl Hm. cbv beta. f_equal.
    rewrite <- D. symmetry. apply Tq2Q_ext. intros. now apply same_hq.
Qed.
