(* C31-C33 and the torque part of C26: torque_lm, torque, torques_at_angle of multipoleLib.py *)
From Coq Require Import String.
From Verif Require Import Props_Multipole MultipoleProofs2.
From Verif Require Import Cplx.
Open Scope C_scope.

(* ---- the derivative of the energy under a rotation about z ---- *)
Lemma cder_cexpi k x : cder (fun t => cexpi (- (k * t))) x (- (Ci * RtoC k) * cexpi (- (k * x))).
Proof. split; unfold cexpi, Ci, Re, Im; cbn; auto_derive; auto; ring. Qed.
Definition ez (phi : R) (m : Z) : C := cexpi (- (IZR m * phi)).
Lemma work_der c q Q phi : (0 <= deg q)%Z -> deg Q = deg q ->
  cder (fun t => work c (deg q) (mom (wt (ez t) q)) (mom Q)) phi (KG c * dot (deg q) (wt (ez phi) q) (Qw Q)).
Proof.
  intros HL DQ. unfold work, KG. replace (RtoC (-4 * PI * c) * Ci * dot (deg q) (wt (ez phi) q) (Qw Q)) with (RtoC (4 * PI * c) * (- Ci * dot (deg q) (wt (ez phi) q) (Qw Q))).
  2:{ replace (-4 * PI * c)%R with (- (4 * PI * c))%R by ring. rewrite RtoC_opp. ring. }
  apply cder_scal. unfold pairing, dot. eapply cder_val; [|apply cder_zsum; intros l Hl; apply cder_zsum; intros m Hm].
  2:{ eapply (cder_ext (fun t => cexpi (- (IZR m * t)) * (mom q l m * mom Q l m / RtoC (2 * IZR l + 1)))); [intros t; rewrite wt_mom; unfold ez, Cdiv; ring|].
      apply cder_scal_r, cder_cexpi. }
  cbv beta. rewrite <- zsum_scal_l. apply zsum_ext. intros l Hl. rewrite <- zsum_scal_l. apply zsum_ext. intros m Hm.
  rewrite wt_mom, Qw_mom. unfold ez. rewrite plus_IZR, mult_IZR. rewrite RtoC_mult, RtoC_div by (apply odd_neq0; lia). unfold Cdiv. ring.
Qed.
Lemma rot_wt q phi p : (0 <= deg q)%Z -> corners0 q -> rotate_qlm q phi 0 0 = Ok p -> same p (wt (ez phi) q).
Proof.
  intros HL Hc E. destruct (rotate_qlm_mom q phi 0 0 HL) as (x & Ex & D & A & B). rewrite E in Ex. injection Ex as <-.
  split; [exact D|]. rewrite D. intros l m Hl Hm. rewrite wt_mom. destruct (Z_lt_le_dec l (Z.abs m)).
  - rewrite B, Hc by lia. ring.
  - rewrite (C25_z_rotation q phi 0 p HL E) by lia. unfold ez. now rewrite Rplus_0_r.
Qed.
Lemma pairing_ext L p p' Q Q' : (forall l m, (0 <= l <= L)%Z -> (Z.abs m <= l)%Z -> p l m = p' l m) ->
  (forall l m, (0 <= l <= L)%Z -> (Z.abs m <= l)%Z -> Q l m = Q' l m) -> pairing L p Q = pairing L p' Q'.
Proof. intros H H'. unfold pairing. apply zsum_ext. intros l Hl. apply zsum_ext. intros m Hm. now rewrite H, H' by lia. Qed.
Lemma ez_conj phi m : ez phi (- m) = Cconj (ez phi m).
Proof. unfold ez. rewrite cexpi_conj, opp_IZR. f_equal. ring. Qed.
(* the torque of symmetric moments is real *)
Lemma torque_real c L p Q : (0 <= L)%Z -> deg p = L -> deg Q = L -> reality p -> reality Q -> Im (KG c * dot L p (Qw Q)) = 0%R.
Proof.
  intros HL Dp DQ Rp RQ. apply Cconj_fix_real. rewrite Cconj_mult. unfold KG at 1. rewrite Cconj_mult, Cconj_RtoC, Cconj_Ci.
  assert (E : Cconj (dot L p (Qw Q)) = - dot L p (Qw Q)); [|rewrite E; unfold KG; ring].
  unfold dot. rewrite zsum_conj. replace (- zsum 0 (L + 1) (fun l => zsum (- l) (l + 1) (fun m => mom p l m * mom (Qw Q) l m)))
    with (zsum 0 (L + 1) (fun l => RtoC (-1) * zsum (- l) (l + 1) (fun m => mom p l m * mom (Qw Q) l m))) by (rewrite zsum_scal_l; ring).
  apply zsum_ext. intros l Hl. rewrite zsum_conj, zsum_rev, <- zsum_scal_l.
  replace (1 - (l + 1))%Z with (- l)%Z by ring. replace (1 - - l)%Z with (l + 1)%Z by ring. apply zsum_ext. intros m Hm.
  rewrite !Qw_mom, Rp, RQ by lia. rewrite !Cconj_mult, !Cconj_conj, !sgnC_conj, Cconj_RtoC, opp_IZR.
  replace (1 / IZR (2 * l + 1) * - IZR m)%R with (- (1 / IZR (2 * l + 1) * IZR m))%R by ring. rewrite RtoC_opp. set (w := RtoC (1 / IZR (2 * l + 1) * IZR m)).
  replace (sgnC m * mom p l m * (sgnC m * mom Q l m * - w)) with (sgnC m * sgnC m * (RtoC (-1) * (mom p l m * (mom Q l m * w)))) by ring. rewrite sgnC_sq. ring.
Qed.
Lemma im0 (x : C) : Im x = 0%R -> x = RtoC (Re x).
Proof. intros H. apply C_eq; [reflexivity|exact H]. Qed.

(* ---- C31 ---- *)
(* the sum of all the torque moments is minus dV/dphi for the sensor turned about z by phi, at phi = 0 *)
Theorem C31_total_is_derivative : forall q Q c T, (0 <= deg q)%Z -> deg Q = deg q -> corners0 q ->
  (forall phi, rotate_qlm q phi 0 0 = Ok (T phi)) ->
  exists nlm nc ns, torque_lm q Q c = Ok (nlm, nc, ns) /\ deg nlm = deg q /\
  cder (fun phi => work c (deg q) (mom (T phi)) (mom Q)) 0 (total nlm).
Proof.
  intros q Q c T HL DQ Hc HT. destruct (torque_lm_ok q Q c HL DQ) as (nlm & nc & ns & E & Ht). exists nlm, nc, ns. split; [exact E|]. split; [exact (proj1 Ht)|].
  eapply cder_ext with (f := fun t => work c (deg q) (mom (wt (ez t) q)) (mom Q)).
  { intros t. unfold work. f_equal. apply pairing_ext; [|reflexivity]. intros l m Hl Hm. symmetry. destruct (rot_wt q t (T t) HL Hc (HT t)) as [D H].
    apply H; rewrite D; cbn [deg wt]; lia. }
  eapply cder_val; [|apply work_der; assumption]. rewrite (total_dot (deg q) (KG c) q (Qw Q) nlm nc ns HL eq_refl Ht Hc). f_equal.
  apply dot_ext; [|reflexivity]. intros l m Hl Hm. rewrite wt_mom. unfold ez. rewrite Rmult_0_r, Ropp_0, cexpi_0. ring.
Qed.
(* each torque moment is -4 pi i G m q_lm Q_lm / (2l+1) *)
Theorem C31_torque_moments : forall q Q c, (0 <= deg q)%Z -> deg Q = deg q -> exists nlm nc ns,
  torque_lm q Q c = Ok (nlm, nc, ns) /\ deg nlm = deg q /\
  (forall l m, (0 <= l <= deg q)%Z -> (Z.abs m <= deg q)%Z ->
     mom nlm l m = - (RtoC (4 * PI * c) * Ci * RtoC (IZR m) * mom q l m * mom Q l m) / RtoC (2 * IZR l + 1)) /\
  vlen nc = (deg q + 1)%Z /\ vlen ns = (deg q + 1)%Z /\
  (forall k, (0 <= k <= deg q)%Z -> vat nc k = col nlm k + col nlm (- k) /\ vat ns k = col nlm k - col nlm (- k)).
Proof.
  intros q Q c HL DQ. destruct (torque_lm_ok q Q c HL DQ) as (nlm & nc & ns & E & (D & H & V1 & V2 & V)). exists nlm, nc, ns.
  split; [exact E|]. split; [exact D|]. split; [|split; [exact V1|split; [exact V2|intros; apply V]]].
  intros l m Hl Hm. rewrite H, Qw_mom. unfold KG. replace (-4 * PI * c)%R with (- (4 * PI * c))%R by ring. rewrite RtoC_opp, plus_IZR, mult_IZR.
  rewrite (RtoC_mult (1 / (2 * IZR l + 1))), RtoC_div by (apply odd_neq0; lia). field. apply RtoC_neq0, odd_neq0. lia.
Qed.
Lemma columns_real q Q c nlm nc ns : (0 <= deg q)%Z -> deg Q = deg q -> reality q -> corners0 q -> reality Q -> torque_lm q Q c = Ok (nlm, nc, ns) ->
  tor (deg q) (KG c) q (Qw Q) nlm nc ns /\ forall k, (0 <= k <= deg q)%Z -> col nlm (- k) = Cconj (col nlm k).
Proof.
  intros HL DQ Rq Cq RQ E. destruct (torque_lm_ok q Q c HL DQ) as (nlm' & nc' & ns' & E' & Ht). rewrite E in E'. injection E' as <- <- <-.
  split; [exact Ht|]. eapply (cols_conj (deg q) (KG c) q (Qw Q)); try eassumption; [reflexivity|]. intros p Dp Rp Cp. now apply torque_real.
Qed.
Theorem C31_nc_real_ns_imaginary : forall q Q c nlm nc ns, (0 <= deg q)%Z -> deg Q = deg q -> reality q -> corners0 q -> reality Q ->
  torque_lm q Q c = Ok (nlm, nc, ns) -> forall k, (0 <= k <= deg q)%Z -> Im (vat nc k) = 0%R /\ Re (vat ns k) = 0%R.
Proof.
  intros q Q c nlm nc ns HL DQ Rq Cq RQ E k Hk. destruct (columns_real q Q c nlm nc ns HL DQ Rq Cq RQ E) as [(_ & _ & _ & _ & V) H].
  destruct (V k) as [E1 E2]. rewrite E1, E2, H by assumption. destruct (col nlm k) as [a b]. unfold Cminus, Cplus, Copp, Cconj, Re, Im. cbn [fst snd]. split; ring.
Qed.
(* evaluating nc, ns at an angle gives the total torque on the sensor turned by that angle (by minus that angle with outer=True) *)
(* the signal at an angle for arbitrary coefficient vectors: tc[0] and ts[0] enter with weight 1/2 *)
Theorem C31_torques_at_angle_formula : forall tc ts phi (outer : bool), (1 <= vlen tc <= vlen ts)%Z ->
  torques_at_angle tc ts phi outer =
  Ok (Re (vat tc 0) / 2 + Im (vat ts 0) / 2
      + Re (zsum 1 (vlen tc) (fun k => (vat tc k + vat ts k)%C * cexpi (- ((if outer then -1 else 1) * IZR k * phi)))%C))%R.
Proof.
  intros tc ts phi outer H. unfold torques_at_angle.
  rewrite (proj2 (Z.leb_gt _ _)), (proj2 (Z.ltb_ge _ _)) by lia. cbn [orb]. replace (vlen tc - 1 + 1)%Z with (vlen tc) by ring. f_equal.
  set (sg := (if outer then -1 else 1)%R). set (f := fun k => (vat tc k + vat ts k) * cexpi (- (sg * IZR k * phi))).
  apply (zfor_ind (fun b (s : R * R) => (fst s + snd s)%R = (Re (vat tc 0) / 2 + Im (vat ts 0) / 2 + Re (zsum 1 b f))%R) 1 (vlen tc)); [lia| |].
  - rewrite zsum_empty by lia. cbn [fst snd Re RtoC]. ring.
  - intros k [c s] Hk IH. cbn [fst snd] in *. rewrite zsum_last by lia. rewrite Re_plus.
    transitivity (c + s + Re (f k))%R; [|rewrite IH; ring]. unfold f. destruct (vat tc k) as [a b], (vat ts k) as [a' b']. unfold cexpi. cbn [Cmult Cplus Re Im fst snd]. rewrite cos_neg, sin_neg. ring.
Qed.
Theorem C31_torques_at_angle : forall q Q c phi (outer : bool) nlm nc ns, (0 <= deg q)%Z -> deg Q = deg q -> reality q -> corners0 q -> reality Q ->
  torque_lm q Q c = Ok (nlm, nc, ns) ->
  exists q' nlm' nc' ns' t, rotate_qlm q (if outer then - phi else phi)%R 0 0 = Ok q' /\ torque_lm q' Q c = Ok (nlm', nc', ns') /\
    torques_at_angle nc ns phi outer = Ok t /\ total nlm' = RtoC t.
Proof.
  intros q Q c phi outer nlm nc ns HL DQ Rq Cq RQ E. destruct (columns_real q Q c nlm nc ns HL DQ Rq Cq RQ E) as [Ht H].
  set (a := (if outer then - phi else phi)%R). destruct (rotate_qlm_mom q a 0 0 HL) as (q' & Eq & Dq & _ & B).
  destruct (torque_lm_ok q' Q c ltac:(lia) ltac:(lia)) as (nlm' & nc' & ns' & E' & Ht').
  assert (C' : corners0 q') by (intros l m Hl Hm; rewrite Dq in *; rewrite B by lia; now apply Cq).
  assert (R' : reality q') by (eapply rotate_reality; eassumption).
  assert (T := total_dot (deg q') (KG c) q' (Qw Q) _ _ _ ltac:(lia) eq_refl Ht' C').
  assert (I := torque_real c (deg q') q' Q ltac:(lia) eq_refl ltac:(lia) R' RQ). rewrite <- T in I.
  exists q', nlm', nc', ns', (Re (total nlm')). split; [exact Eq|]. split; [exact E'|]. split; [|now apply im0].
  rewrite (angle_ok (deg q) nlm nc ns phi outer HL (proj2 (proj2 Ht)) H). f_equal. f_equal. rewrite T, Dq.
  assert (S := rot_wt q a q' HL Cq Eq). rewrite (dot_ext (deg q) q' (wt (ez a) q) (Qw Q) (Qw Q)); [|intros l m Hl Hm; apply S; lia|reflexivity].
  rewrite (dot_wt (deg q) (KG c) (ez a) q (Qw Q) nlm nc ns HL eq_refl Ht Cq). apply zsum_ext. intros m Hm. f_equal. unfold ez, a. f_equal. destruct outer; ring.
Qed.
(* bodies: sensor P, source S; turned by an angle about z *)
Definition turned (phi : R) (P : list pt) : list pt := map (fun p => mkpt (pm p) (zrot phi (pp p))) P.
Lemma euler_z phi v : euler phi 0 0 v = zrot phi v.
Proof. destruct v as [[x y] z]. unfold euler, zrot, yrot. rewrite cos_0, sin_0. vsplit; ring. Qed.
Lemma turned_euler phi P : map (fun p => mkpt (pm p) (euler phi 0 0 (pp p))) P = turned phi P.
Proof. unfold turned. apply map_ext. intros p. now rewrite euler_z. Qed.
Lemma reality_of q f : holds q f -> (forall l m, f l (- m)%Z = sgnC m * Cconj (f l m)) -> reality q.
Proof.
  intros [H C0] Hf l m Hl Hm. destruct (Z_lt_le_dec l (Z.abs m)).
  - rewrite !C0 by lia. rewrite Cconj_RtoC. ring.
  - rewrite !H by lia. apply Hf.
Qed.
Lemma reality_outer q P : holds q (outer_moment P) -> reality q.
Proof.
  intros H. eapply reality_of; [exact H|]. intros l m. unfold outer_moment. rewrite lsum_conj, <- lsum_scal. apply lsum_ext. intros p _.
  unfold isolid. rewrite rsolid_symm, !Cconj_mult, !Cconj_div, !Cconj_conj, sgnC_conj, !Cconj_RtoC. unfold Cdiv. ring.
Qed.
Lemma inner_turned P phi l m : (0 <= l)%Z -> (Z.abs m <= l)%Z -> inner_moment (turned phi P) l m = ez phi m * inner_moment P l m.
Proof.
  intros Hl Hm. unfold inner_moment, turned. rewrite lsum_map, <- lsum_scal. apply lsum_ext. intros p _. cbn [pm pp]. rewrite !rsolid_S, S_zrot. unfold ez. ring.
Qed.
Lemma vnorm_zrot phi v : vnorm (zrot phi v) = vnorm v.
Proof.
  destruct v as [[x y] z]. unfold zrot. rewrite !vnorm_xyz. f_equal. assert (E := sin2_cos2 phi). unfold Rsqr in E.
  replace ((cos phi * x - sin phi * y) ^ 2 + (sin phi * x + cos phi * y) ^ 2 + z ^ 2)%R with ((sin phi * sin phi + cos phi * cos phi) * (x ^ 2 + y ^ 2) + z ^ 2)%R by ring. rewrite E. ring.
Qed.
Lemma outer_turned P phi l m : (0 <= l)%Z -> (Z.abs m <= l)%Z -> outer_moment (turned phi P) l m = ez (- phi) m * outer_moment P l m.
Proof.
  intros Hl Hm. unfold outer_moment, turned. rewrite lsum_map, <- lsum_scal. apply lsum_ext. intros p _. cbn [pm pp]. unfold isolid.
  rewrite !rsolid_S, S_zrot, vnorm_zrot, !Cconj_mult, cexpi_conj. unfold ez, Cdiv.
  replace (- - (IZR m * phi))%R with (- (IZR m * - phi))%R by ring. ring.
Qed.
Theorem C31_torque_on_a_turning_body : forall q Q P S c nlm nc ns phi, (0 <= deg q)%Z -> deg Q = deg q ->
  holds q (inner_moment P) -> holds Q (outer_moment S) -> torque_lm q Q c = Ok (nlm, nc, ns) ->
  (exists t, torques_at_angle nc ns phi false = Ok t /\
     cder (fun psi => work c (deg q) (inner_moment (turned psi P)) (outer_moment S)) phi (RtoC t)) /\
  (exists t, torques_at_angle nc ns phi true = Ok t /\
     cder (fun psi => work c (deg q) (inner_moment (turned psi P)) (outer_moment (turned phi S))) 0 (RtoC t)).
Proof.
  intros q Q P S c nlm nc ns phi HL DQ Hq HQ E. assert (Rq := reality_inner q P Hq). assert (RQ := reality_outer Q S HQ). assert (Cq := proj2 Hq).
  assert (G : forall a, cder (fun psi => work c (deg q) (inner_moment (turned psi P)) (outer_moment S)) a (KG c * dot (deg q) (wt (ez a) q) (Qw Q))).
  { intros a. eapply cder_ext; [|apply work_der; assumption]. intros t. cbv beta. unfold work. f_equal. apply pairing_ext.
    - intros l m Hl Hm. rewrite wt_mom, inner_turned by lia. f_equal. apply Hq; lia.
    - intros l m Hl Hm. apply HQ; lia. }
  assert (W : forall (outer : bool) t, torques_at_angle nc ns phi outer = Ok t -> KG c * dot (deg q) (wt (ez (if outer then - phi else phi)%R) q) (Qw Q) = RtoC t).
  { intros outer t Et. destruct (C31_torques_at_angle q Q c phi outer nlm nc ns HL DQ Rq Cq RQ E) as (q' & n' & c' & s' & t' & E1 & E2 & E3 & E4).
    rewrite Et in E3. injection E3 as <-. assert (Sm := rot_wt _ _ _ HL Cq E1). assert (Dq : deg q' = deg q) by (apply Sm).
    destruct (torque_lm_ok q' Q c ltac:(lia) ltac:(lia)) as (a1 & a2 & a3 & E' & Ht'). rewrite E2 in E'. injection E' as <- <- <-.
    assert (C' : corners0 q') by (intros l m Hl Hm; rewrite Dq in *; rewrite (proj2 Sm) by (rewrite ?Dq; lia); apply wt_corners; [exact Cq|cbn; lia|cbn; lia]).
    rewrite <- E4, (total_dot (deg q') (KG c) q' (Qw Q) _ _ _ ltac:(lia) eq_refl Ht' C'), Dq. f_equal. apply dot_ext; [|reflexivity]. intros l m Hl Hm. symmetry. apply Sm; lia. }
  split.
  - destruct (C31_torques_at_angle q Q c phi false nlm nc ns HL DQ Rq Cq RQ E) as (q' & n' & c' & s' & t & E1 & E2 & E3 & E4).
    exists t. split; [exact E3|]. rewrite <- (W false t E3). apply G.
  - destruct (C31_torques_at_angle q Q c phi true nlm nc ns HL DQ Rq Cq RQ E) as (q' & n' & c' & s' & t & E1 & E2 & E3 & E4).
    exists t. split; [exact E3|]. rewrite <- (W true t E3).
    eapply cder_ext with (f := fun psi => work c (deg q) (mom (wt (ez psi) q)) (mom (wt (ez (- phi)) Q))).
    + intros t'. unfold work. f_equal. apply pairing_ext.
      * intros l m Hl Hm. rewrite wt_mom, inner_turned by lia. f_equal. apply Hq; lia.
      * intros l m Hl Hm. rewrite wt_mom, outer_turned by lia. f_equal. apply HQ; lia.
    + eapply cder_val; [|apply work_der; assumption]. f_equal. unfold dot. apply zsum_ext. intros l Hl. apply zsum_ext. intros m Hm.
      rewrite !wt_mom, !Qw_mom, wt_mom. unfold ez at 1. rewrite Rmult_0_r, Ropp_0, cexpi_0. ring.
Qed.
Example C31_case : exists nlm nc ns, torque_lm exd exd 1 = Ok (nlm, nc, ns) /\ reality exd /\ corners0 exd /\ vlen nc = 3%Z.
Proof.
  destruct exd_ok as (H1 & H2 & H3 & _). destruct (C31_torque_moments exd exd 1 ltac:(lia) eq_refl) as (a & b & d & E & _ & _ & V & _).
  exists a, b, d. split; [exact E|]. split; [exact H2|]. split; [exact H3|exact V].
Qed.
Print Assumptions C31_total_is_derivative.
Print Assumptions C31_torque_on_a_turning_body.

(* ---- C32: shapes ---- *)
Theorem C32_torque_lm_needs_equal_degrees : forall q Q c, (1 <= deg q)%Z -> (1 <= deg Q)%Z -> deg q <> deg Q -> torque_lm q Q c = Err ValueError.
Proof.
  intros q Q c H1 H2 Hn. unfold torque_lm, bmul, cscal, lm_outer. cbn [deg].
  destruct (Z.min_spec (deg q) (deg Q)) as [[Hlt ->]|[Hge ->]].
  - rewrite Z.eqb_refl. cbn [bind deg]. rewrite (proj2 (Z.eqb_neq (deg q) (deg Q))), (proj2 (Z.eqb_neq (deg Q) 0)), (proj2 (Z.eqb_neq (deg q) 0)) by lia. reflexivity.
  - rewrite (proj2 (Z.eqb_neq (deg Q) (deg q))), (proj2 (Z.eqb_neq (deg q) 0)), (proj2 (Z.eqb_neq (deg Q) 0)) by lia. reflexivity.
Qed.
Definition allzero (a : marr) : Prop := forall l m, (0 <= l <= deg a)%Z -> (Z.abs m <= deg a)%Z -> mom a l m = 0.
Lemma bmul_zero a b : (0 <= deg a)%Z -> (0 <= deg b)%Z -> deg a = deg b \/ deg a = 0%Z \/ deg b = 0%Z -> allzero a ->
  exists n, bmul a b = Ok n /\ deg n = Z.max (deg a) (deg b) /\ allzero n.
Proof.
  intros Ha Hb Hd Hz. unfold bmul. destruct (Z.eqb_spec (deg a) (deg b)) as [E|N].
  - eexists. split; [reflexivity|]. split; [cbn; lia|]. intros l m Hl Hm. cbn [deg] in *. assert (X := Hz l m ltac:(lia) ltac:(lia)). unfold mom in *. cbn [deg at_]. rewrite X. ring.
  - destruct (Z.eqb_spec (deg b) 0).
    + eexists. split; [reflexivity|]. split; [cbn; lia|]. intros l m Hl Hm. cbn [deg] in *. assert (X := Hz l m ltac:(lia) ltac:(lia)). unfold mom in *. cbn [deg at_]. rewrite X. ring.
    + assert (E0 : deg a = 0%Z) by lia. rewrite (proj2 (Z.eqb_eq (deg a) 0) E0). eexists. split; [reflexivity|]. split; [cbn; lia|]. intros l m Hl Hm. unfold mom at 1. cbn [deg at_].
      assert (E := Hz 0%Z 0%Z ltac:(lia) ltac:(lia)). unfold mom in E. rewrite E0 in E. cbn in E. rewrite E. ring.
Qed.
(* with a 1x1 array numpy broadcasting applies: no error, and zeros of the larger shape *)
Theorem C32_torque_lm_of_a_1x1_array : forall q Q c, (0 <= deg q)%Z -> (0 <= deg Q)%Z -> deg q = 0%Z \/ deg Q = 0%Z ->
  exists nlm nc ns, torque_lm q Q c = Ok (nlm, nc, ns) /\ deg nlm = Z.max (deg q) (deg Q) /\
  vlen nc = (2 * Z.max (deg q) (deg Q) + 1)%Z /\ vlen ns = vlen nc /\ allzero nlm /\
  (forall k, (0 <= k < vlen nc)%Z -> vat nc k = 0 /\ vat ns k = 0).
Proof.
  intros q Q c H1 H2 Hz. unfold torque_lm. replace (Z.min (deg q) (deg Q)) with 0%Z by lia.
  destruct (bmul_zero (cscal (RtoC (- 4 * PI * c) * Ci) (lm_outer 0)) q) as (a & Ea & Da & Za); [cbn; lia|lia|right; left; reflexivity| |].
  { intros l m Hl Hm. change (deg (cscal (RtoC (- 4 * PI * c) * Ci) (lm_outer 0))) with 0%Z in Hm. replace m with 0%Z by lia. unfold mom, cscal, lm_outer. cbn [deg at_]. change (0 + 0 - 0)%Z with 0%Z. rewrite Rmult_0_r. ring. }
  rewrite Ea. cbn [bind]. change (deg (cscal (RtoC (- 4 * PI * c) * Ci) (lm_outer 0))) with 0%Z in Da.
  destruct (bmul_zero a Q) as (n & En & Dn & Zn); [lia|lia|lia|exact Za|]. rewrite En. cbn [bind].
  assert (D : deg n = Z.max (deg q) (deg Q)) by lia. unfold nc_ns, vop. cbn [vlen from_ back_ colsum]. rewrite D. set (D' := Z.max (deg q) (deg Q)) in *.
  assert (CS : forall k, (0 <= k <= 2 * D')%Z -> vat (colsum n) k = 0).
  { intros k Hk. unfold colsum. cbn [vat]. apply zsum_0. intros l Hl. assert (E := Zn l (k - deg n)%Z ltac:(lia) ltac:(lia)). unfold mom in E. now replace (deg n + (k - deg n))%Z with k in E by ring. }
  destruct (Z.eqb_spec (2 * D' + 1 - 0) (0 + 1)) as [E|N]; cbn [bind].
  - do 3 eexists. split; [reflexivity|]. split; [exact D|]. cbn [vlen]. split; [lia|]. split; [reflexivity|]. split; [exact Zn|].
    intros k Hk. cbn [vat from_ back_]. rewrite !CS by lia. split; ring.
  - do 3 eexists. split; [reflexivity|]. split; [exact D|]. cbn [vlen]. split; [lia|]. split; [reflexivity|]. split; [exact Zn|].
    intros k Hk. cbn [vat from_ back_]. rewrite !CS by lia. split; ring.
Qed.
(* torque: the same for arrays of different degrees *)
Lemma imul_mismatch a L : (1 <= L)%Z -> deg a <> L -> imul a (lm_outer L) = Err ValueError.
Proof. intros HL H. unfold imul, lm_outer. cbn [deg]. now rewrite (proj2 (Z.eqb_neq (deg a) L)), (proj2 (Z.eqb_neq L 0)) by lia. Qed.
Lemma fin_mismatch K a b L : deg a <> deg b -> (1 <= deg a)%Z -> (1 <= deg b)%Z -> (do nlm <- bmul (cscal K a) b; nc_ns L nlm) = Err ValueError.
Proof.
  intros N Ha Hb. unfold bmul, cscal. cbn [deg]. now rewrite (proj2 (Z.eqb_neq (deg a) (deg b))), (proj2 (Z.eqb_neq (deg b) 0)), (proj2 (Z.eqb_neq (deg a) 0)) by lia.
Qed.
Lemma Qw_deg Q : deg (Qw Q) = deg Q. Proof. reflexivity. Qed.
Theorem C32_torque_needs_equal_degrees : forall q Q a b g v tt c, (1 <= deg q)%Z -> (1 <= deg Q)%Z -> deg q <> deg Q ->
  torque q Q a b g v tt c = Err ValueError.
Proof.
  intros q Q a b g v tt c H1 H2 Hn. unfold torque. cbv zeta. set (L := Z.min (deg q) (deg Q)).
  assert (HL : (1 <= L)%Z) by (unfold L; lia).
  destruct (wDl_ex L a b g HL) as (d1 & E1 & K1). destruct (wDl_ex L (- a) b (- g) HL) as (d2 & E2 & K2). rewrite E1, E2.
  destruct (String.eqb tt "inner-inner") eqn:T1; cbn [orb bind].
  { destruct (Z.min_spec (deg q) (deg Q)) as [[Hlt EL]|[Hge EL]]; fold L in EL; rewrite EL in *.
    - rewrite imul_mismatch by lia. reflexivity.
    - rewrite imul_Qw. cbn [bind]. destruct (chain_ii (Qw Q) d1 v) as (Q'' & EQ & DQ & _); [rewrite Qw_deg; lia|rewrite Qw_deg; exact K1|]. rewrite Qw_deg in *. rewrite EQ. cbn [bind].
      apply fin_mismatch; lia. }
  destruct (String.eqb tt "inner-outer") eqn:T2; cbn [orb bind].
  { destruct (Z.min_spec (deg q) (deg Q)) as [[Hlt EL]|[Hge EL]]; fold L in EL; rewrite EL in *.
    - rewrite imul_Qw. cbn [bind]. destruct (chain_io (Qw q) d1 v) as (Q'' & EQ & DQ & _); [rewrite Qw_deg; lia|rewrite Qw_deg; exact K1|]. rewrite Qw_deg in *. cbv zeta in EQ. cbn [bind] in EQ. rewrite EQ. cbn [bind].
      apply fin_mismatch; lia.
    - rewrite imul_mismatch by lia. reflexivity. }
  destruct (String.eqb tt "outer-outer") eqn:T3; cbn [orb bind]; [|reflexivity].
  destruct (Z.min_spec (deg q) (deg Q)) as [[Hlt EL]|[Hge EL]]; fold L in EL; rewrite EL in *.
  - rewrite imul_Qw. cbn [bind]. destruct (chain_oo (Qw q) d2 v) as (Q'' & EQ & DQ & _); [rewrite Qw_deg; lia|rewrite Qw_deg; exact K2|]. rewrite Qw_deg in *. cbv zeta in EQ. cbn [bind] in EQ. rewrite EQ. cbn [bind].
    apply fin_mismatch; lia.
  - rewrite imul_mismatch by lia. reflexivity.
Qed.
Example C32_case : (1 <= deg (zeros 1))%Z /\ (1 <= deg exd)%Z /\ deg (zeros 1) <> deg exd /\ deg (zeros 0) = 0%Z.
Proof. cbn. repeat split; lia. Qed.
Print Assumptions C32_torque_lm_needs_equal_degrees.
Print Assumptions C32_torque_needs_equal_degrees.

(* ---- C26 ---- *)
Theorem C26_torque_fails_at_degree_zero : forall q Q a b g v tt c, Z.min (deg q) (deg Q) = 0%Z -> torque q Q a b g v tt c = Err TypeError.
Proof. intros q Q a b g v tt c H. unfold torque. rewrite H. cbv zeta. destruct (_ || _)%bool; reflexivity. Qed.
Print Assumptions C26_torque_fails_at_degree_zero.

(* ---- C33: torque ---- *)
Theorem C33_unknown_type : forall q Q a b g v tt c, (1 <= Z.min (deg q) (deg Q))%Z ->
  tt <> "inner-inner"%string -> tt <> "inner-outer"%string -> tt <> "outer-outer"%string -> torque q Q a b g v tt c = Err ValueError.
Proof.
  intros q Q a b g v tt c H T1 T2 T3. unfold torque. cbv zeta.
  rewrite (proj2 (String.eqb_neq tt _) T1), (proj2 (String.eqb_neq tt _) T2), (proj2 (String.eqb_neq tt _) T3). cbn [orb].
  destruct (wDl_ex _ (- a) b (- g) H) as (d2 & -> & _). reflexivity.
Qed.
Lemma torque_ii q Q a b g v c : (1 <= deg q)%Z -> deg Q = deg q -> exists ds Q'' nlm nc ns, wignerDl (deg q) a b g = Ok ds /\
  torque q Q a b g v "inner-inner" c = Ok (nlm, nc, ns) /\ tor (deg q) (KG c) q Q'' nlm nc ns /\ deg Q'' = deg q /\
  forall p, deg p = deg q -> exists p2, Mii ds v p = Ok p2 /\ dot (deg q) p Q'' = dot (deg q) p2 (Qw Q).
Proof.
  intros HL DQ. unfold torque. cbv zeta. rewrite DQ, Z.min_id. destruct (wDl_ex (deg q) a b g HL) as (d1 & E1 & K1). rewrite E1. cbn [String.eqb Ascii.eqb Bool.eqb orb bind].
  rewrite <- DQ, imul_Qw. cbn [bind]. destruct (chain_ii (Qw Q) d1 v) as (Q'' & EQ & DQ' & HQ); [rewrite Qw_deg; lia|rewrite Qw_deg, DQ; exact K1|]. rewrite Qw_deg in *.
  rewrite EQ. cbn [bind]. rewrite DQ in *. destruct (tor_fin (deg q) (KG c) q Q'' ltac:(lia) eq_refl DQ') as (nlm & nc & ns & E & Ht).
  exists d1, Q'', nlm, nc, ns. split; [reflexivity|]. split; [exact E|]. split; [exact Ht|]. split; [exact DQ'|exact HQ].
Qed.
Lemma rot_corners q a b g q' : (0 <= deg q)%Z -> corners0 q -> rotate_qlm q a b g = Ok q' -> deg q' = deg q /\ corners0 q'.
Proof.
  intros HL Hc E. destruct (rotate_qlm_mom q a b g HL) as (x & Ex & D & A & B). rewrite E in Ex. injection Ex as <-. split; [exact D|].
  intros l m Hl Hm. rewrite D in *. rewrite B by lia. now apply Hc.
Qed.
Lemma rec_corners q v q' : (1 <= deg q)%Z -> corners0 q -> rec_translate_qlm q v = Ok q' -> deg q' = deg q /\ corners0 q'.
Proof.
  intros HL Hc E. destruct (is0_cases (vnorm v)) as [[E0 Ez]|[E0 Ez]].
  - unfold rec_translate_qlm in E. rewrite Ez in E. injection E as <-. now split.
  - destruct (rec_qlm_holds q v ltac:(lia) E0 ltac:(left; lia)) as (x & Ex & Dx & Hx). rewrite E in Ex. injection Ex as <-. split; [exact Dx|exact (proj2 Hx)].
Qed.
(* rotated then translated sensor *)
Lemma place_ex q a b g v ds : (1 <= deg q)%Z -> corners0 q -> wignerDl (deg q) a b g = Ok ds -> exists q1 q2 p2,
  rotate_qlm q a b g = Ok q1 /\ rec_translate_qlm q1 v = Ok q2 /\ Mii ds v q = Ok p2 /\ same p2 q2 /\ deg q2 = deg q /\ corners0 q2.
Proof.
  intros HL Hc E. destruct (C27_Ds_is_rotate_qlm q a b g ds HL E) as (q1 & E1 & S1 & _).
  destruct (rot_corners q a b g q1 ltac:(lia) Hc E1) as [D1 C1].
  assert (T : exists p2, rec_translate_qlm (rotate_qlm_Ds q ds false) v = Ok p2).
  { destruct (is0_cases (vnorm v)) as [[E0 Ez]|[E0 Ez]].
    - unfold rec_translate_qlm. rewrite Ez. eauto.
    - assert (Dd : deg (rotate_qlm_Ds q ds false) = deg q) by (rewrite (proj1 S1); exact D1).
      destruct (rec_qlm_holds (rotate_qlm_Ds q ds false) v ltac:(lia) E0 ltac:(left; lia)) as (x & Ex & _). eauto. }
  destruct T as (p2 & Ep). destruct (rec_qlm_same _ q1 v p2 ltac:(rewrite (proj1 S1); lia) S1 Ep) as (q2 & E2 & S2).
  destruct (rec_corners q1 v q2 ltac:(lia) C1 E2) as [D2 C2].
  exists q1, q2, p2. split; [exact E1|]. split; [exact E2|]. split; [exact Ep|]. split; [exact S2|]. split; [lia|exact C2].
Qed.
(* 'inner-inner': the total is that of torque_lm for the sensor rotated by the Euler angles and then displaced by rvec *)
Theorem C33_inner_inner : forall q Q a b g v c, (1 <= deg q)%Z -> deg Q = deg q -> corners0 q ->
  exists q1 q2 nlm nc ns nlm' nc' ns', rotate_qlm q a b g = Ok q1 /\ rec_translate_qlm q1 v = Ok q2 /\
    torque q Q a b g v "inner-inner" c = Ok (nlm, nc, ns) /\ torque_lm q2 Q c = Ok (nlm', nc', ns') /\ total nlm = total nlm'.
Proof.
  intros q Q a b g v c HL DQ Hc. destruct (torque_ii q Q a b g v c HL DQ) as (ds & Q'' & nlm & nc & ns & Ed & E & Ht & DQ' & HQ).
  destruct (place_ex q a b g v ds HL Hc Ed) as (q1 & q2 & p2 & E1 & E2 & E3 & S & D2 & C2).
  destruct (HQ q eq_refl) as (p2' & E3' & Ed'). rewrite E3 in E3'. injection E3' as <-.
  destruct (torque_lm_ok q2 Q c ltac:(lia) ltac:(lia)) as (n' & c' & s' & E' & Ht'). exists q1, q2, nlm, nc, ns, n', c', s'.
  split; [exact E1|]. split; [exact E2|]. split; [exact E|]. split; [exact E'|].
  rewrite (total_dot (deg q) (KG c) q Q'' nlm nc ns ltac:(lia) eq_refl Ht Hc), (total_dot (deg q2) (KG c) q2 (Qw Q) n' c' s' ltac:(lia) eq_refl Ht' C2), D2, Ed'.
  f_equal. apply dot_ext; [|reflexivity]. intros l m Hl Hm. apply S; rewrite (proj1 S); lia.
Qed.
(* and nc, ns evaluated at phi is the torque when the sensor is first turned by phi about its own axis *)
Theorem C33_inner_inner_at_angle : forall q Q a b g v c phi nlm nc ns, (1 <= deg q)%Z -> deg Q = deg q -> reality q -> corners0 q -> reality Q ->
  torque q Q a b g v "inner-inner" c = Ok (nlm, nc, ns) ->
  exists q0 q1 q2 nlm' nc' ns' t, rotate_qlm q phi 0 0 = Ok q0 /\ rotate_qlm q0 a b g = Ok q1 /\ rec_translate_qlm q1 v = Ok q2 /\
    torque_lm q2 Q c = Ok (nlm', nc', ns') /\ torques_at_angle nc ns phi false = Ok t /\ total nlm' = RtoC t.
Proof.
  intros q Q a b g v c phi nlm nc ns HL DQ Rq Hc RQ E. destruct (torque_ii q Q a b g v c HL DQ) as (ds & Q'' & n & cc & s & Ed & E' & Ht & DQ' & HQ).
  rewrite E in E'. injection E' as <- <- <-.
  assert (main : forall p, deg p = deg q -> reality p -> corners0 p -> exists q1 q2 n' c' s', rotate_qlm p a b g = Ok q1 /\ rec_translate_qlm q1 v = Ok q2 /\
     torque_lm q2 Q c = Ok (n', c', s') /\ total n' = KG c * dot (deg q) p Q'' /\ Im (total n') = 0%R).
  { intros p Dp Rp Cp. rewrite <- Dp in Ed. destruct (place_ex p a b g v ds ltac:(lia) Cp Ed) as (q1 & q2 & p2 & E1 & E2 & E3 & S & D2 & C2).
    destruct (HQ p Dp) as (p2' & E3' & Ed'). rewrite E3 in E3'. injection E3' as <-.
    destruct (torque_lm_ok q2 Q c ltac:(lia) ltac:(lia)) as (n' & c' & s' & E' & Ht'). exists q1, q2, n', c', s'. split; [exact E1|]. split; [exact E2|]. split; [exact E'|].
    assert (T := total_dot (deg q2) (KG c) q2 (Qw Q) n' c' s' ltac:(lia) eq_refl Ht' C2). split.
    - rewrite T, D2, Dp, Ed'. f_equal. apply dot_ext; [|reflexivity]. intros l m Hl Hm. symmetry. apply S; rewrite (proj1 S); lia.
    - rewrite T. apply torque_real; try lia; [|exact RQ]. destruct (C11_rotated_arrays p a b g q1 ltac:(lia) Rp Cp E1) as [R1 C1].
      apply (proj1 (C11_recursively_translated_arrays q1 v ltac:(rewrite (proj1 (rot_corners p a b g q1 ltac:(lia) Cp E1)); lia) R1 C1) q2 E2). }
  assert (cj : forall k, (0 <= k <= deg q)%Z -> col nlm (- k) = Cconj (col nlm k)).
  { apply (cols_conj (deg q) (KG c) q Q'' nlm nc ns ltac:(lia) eq_refl Ht Hc Rq). intros p Dp Rp Cp.
    destruct (main p Dp Rp Cp) as (? & ? & ? & ? & ? & _ & _ & _ & T & I). now rewrite <- T. }
  destruct (rotate_qlm_mom q phi 0 0 ltac:(lia)) as (q0 & E0 & D0 & _). assert (S0 := rot_wt q phi q0 ltac:(lia) Hc E0).
  destruct (rot_corners q phi 0 0 q0 ltac:(lia) Hc E0) as [_ C0].
  destruct (main q0 D0 (rotate_reality q q0 phi 0 0 ltac:(lia) Rq E0) C0) as (q1 & q2 & n' & c' & s' & F1 & F2 & F3 & F4 & F5).
  exists q0, q1, q2, n', c', s', (Re (total n')). split; [exact E0|]. split; [exact F1|]. split; [exact F2|]. split; [exact F3|]. split; [|now apply im0].
  rewrite (angle_ok (deg q) nlm nc ns phi false ltac:(lia) (proj2 (proj2 Ht)) cj). f_equal. f_equal. rewrite F4.
  rewrite (dot_ext (deg q) q0 (wt (ez phi) q) Q'' Q''); [|intros l m Hl Hm; apply S0; lia|reflexivity].
  rewrite (dot_wt (deg q) (KG c) (ez phi) q Q'' nlm nc ns ltac:(lia) eq_refl Ht Hc). apply zsum_ext. intros m Hm. f_equal. unfold ez. f_equal. ring.
Qed.

Lemma dot_Qw L a b : dot L a (Qw b) = dot L (Qw a) b.
Proof. unfold dot. apply zsum_ext. intros l _. apply zsum_ext. intros m _. rewrite !Qw_mom. ring. Qed.
Lemma torque_io q Q a b g v c : (1 <= deg q)%Z -> deg Q = deg q -> exists ds q'' nlm nc ns, wignerDl (deg q) a b g = Ok ds /\
  torque q Q a b g v "inner-outer" c = Ok (nlm, nc, ns) /\ tor (deg q) (KG c) q'' Q nlm nc ns /\ deg q'' = deg q /\
  forall p, deg p = deg q -> exists p2, Mio ds v p = Ok p2 /\ dot (deg q) p q'' = dot (deg q) (if noflip v then fliplr p2 else p2) (Qw q).
Proof.
  intros HL DQ. unfold torque. cbv zeta. rewrite DQ, Z.min_id. destruct (wDl_ex (deg q) a b g HL) as (d1 & E1 & K1). rewrite E1. cbn [String.eqb Ascii.eqb Bool.eqb orb bind].
  rewrite imul_Qw. cbn [bind]. destruct (chain_io (Qw q) d1 v) as (Q'' & EQ & DQ' & HQ); [rewrite Qw_deg; lia|rewrite Qw_deg; exact K1|]. rewrite Qw_deg in *. cbv zeta in EQ. cbn [bind] in EQ.
  rewrite EQ. cbn [bind]. destruct (tor_fin (deg q) (KG c) Q'' Q ltac:(lia) DQ' DQ) as (nlm & nc & ns & E & Ht).
  exists d1, Q'', nlm, nc, ns. split; [reflexivity|]. split; [exact E|]. split; [exact Ht|]. split; [exact DQ'|exact HQ].
Qed.
Lemma torque_oo q Q a b g v c : (1 <= deg q)%Z -> deg Q = deg q -> exists ds q'' nlm nc ns, wignerDl (deg q) (- a) b (- g) = Ok ds /\
  torque q Q a b g v "outer-outer" c = Ok (nlm, nc, ns) /\ tor (deg q) (KG c) q'' Q nlm nc ns /\ deg q'' = deg q /\
  forall p, deg p = deg q -> exists p2, Moo ds v p = Ok p2 /\ dot (deg q) p q'' = dot (deg q) p2 (Qw q).
Proof.
  intros HL DQ. unfold torque. cbv zeta. rewrite DQ, Z.min_id. destruct (wDl_ex (deg q) (- a) b (- g) HL) as (d1 & E1 & K1). rewrite E1. cbn [String.eqb Ascii.eqb Bool.eqb orb bind].
  rewrite imul_Qw. cbn [bind]. destruct (chain_oo (Qw q) d1 v) as (Q'' & EQ & DQ' & HQ); [rewrite Qw_deg; lia|rewrite Qw_deg; exact K1|]. rewrite Qw_deg in *. cbv zeta in EQ. cbn [bind] in EQ.
  rewrite EQ. cbn [bind]. destruct (tor_fin (deg q) (KG c) Q'' Q ltac:(lia) DQ' DQ) as (nlm & nc & ns & E & Ht).
  exists d1, Q'', nlm, nc, ns. split; [reflexivity|]. split; [exact E|]. split; [exact Ht|]. split; [exact DQ'|exact HQ].
Qed.
Lemma q2Q_corners q v q' : (1 <= deg q)%Z -> corners0 q -> rec_translate_q2Q q v = Ok q' -> deg q' = deg q /\ corners0 q'.
Proof.
  intros HL Hc E. destruct (is0_cases (vnorm v)) as [[E0 Ez]|[E0 Ez]].
  - unfold rec_translate_q2Q in E. rewrite Ez in E. injection E as <-. now split.
  - destruct (rec_q2Q_holds q v ltac:(lia) E0 ltac:(left; lia)) as (x & Ex & Dx & Hx). rewrite E in Ex. injection Ex as <-. split; [exact Dx|exact (proj2 Hx)].
Qed.
Lemma Qlmb_corners q v q' : (1 <= deg q)%Z -> corners0 q -> rec_translate_Qlmb q v = Ok q' -> deg q' = deg q /\ corners0 q'.
Proof.
  intros HL Hc E. destruct (is0_cases (vnorm v)) as [[E0 Ez]|[E0 Ez]].
  - unfold rec_translate_Qlmb in E. rewrite Ez in E. injection E as <-. now split.
  - destruct (rec_Qlmb_holds q v ltac:(lia) E0 ltac:(left; lia)) as (x & Ex & Dx & Hx). rewrite E in Ex. injection Ex as <-. split; [exact Dx|exact (proj2 Hx)].
Qed.
Lemma place_io q a b g v ds p2 : (1 <= deg q)%Z -> corners0 q -> wignerDl (deg q) a b g = Ok ds -> Mio ds v q = Ok p2 -> exists q1 q2,
  rotate_qlm q a b g = Ok q1 /\ rec_translate_q2Q q1 v = Ok q2 /\ same p2 q2 /\ deg q2 = deg q /\ corners0 q2.
Proof.
  intros HL Hc E Ep. destruct (C27_Ds_is_rotate_qlm q a b g ds HL E) as (q1 & E1 & S1 & _).
  destruct (rot_corners q a b g q1 ltac:(lia) Hc E1) as [D1 C1].
  destruct (rec_q2Q_same _ q1 v p2 ltac:(rewrite (proj1 S1); lia) S1 Ep) as (q2 & E2 & S2).
  destruct (q2Q_corners q1 v q2 ltac:(lia) C1 E2) as [D2 C2].
  exists q1, q2. split; [exact E1|]. split; [exact E2|]. split; [exact S2|]. split; [lia|exact C2].
Qed.
Lemma place_oo q a b g v ds p2 : (1 <= deg q)%Z -> corners0 q -> wignerDl (deg q) a b g = Ok ds -> Moo ds v q = Ok p2 -> exists q1 q2,
  rotate_qlm q a b g = Ok q1 /\ rec_translate_Qlmb q1 (mirror v) = Ok q2 /\ same p2 q2 /\ deg q2 = deg q /\ corners0 q2.
Proof.
  intros HL Hc E Ep. destruct (C27_Ds_is_rotate_qlm q a b g ds HL E) as (q1 & E1 & S1 & _).
  destruct (rot_corners q a b g q1 ltac:(lia) Hc E1) as [D1 C1].
  destruct (rec_Qlmb_same _ q1 (mirror v) p2 ltac:(rewrite (proj1 S1); lia) S1 Ep) as (q2 & E2 & S2).
  destruct (Qlmb_corners q1 (mirror v) q2 ltac:(lia) C1 E2) as [D2 C2].
  exists q1, q2. split; [exact E1|]. split; [exact E2|]. split; [exact S2|]. split; [lia|exact C2].
Qed.
(* strictly above the origin on the z axis *)
Definition above (v : vec) : Prop := let '(x, y, z) := v in x = 0%R /\ y = 0%R /\ (0 < z)%R.
Lemma above_noflip v : noflip v = true <-> above v.
Proof.
  unfold noflip. destruct (is0_cases (vnorm v)) as [[E0 ->]|[E0 ->]]; cbn [negb andb].
  - split; [discriminate|]. apply vnorm_0_iff in E0. subst v. intros (_ & _ & H). lra.
  - rewrite up_axis_on by assumption. destruct v as [[x y] z]. unfold up_axis, above. split; intros (Hx & Hy & Hz); split; [exact Hx| |exact Hx|]; split; try exact Hy; [|lra].
    destruct Hz as [Hz|Hz]; [exact Hz|]. exfalso. apply E0. apply vnorm_0_iff. subst. reflexivity.
Qed.
Lemma fliplr_mom q l m : mom (fliplr q) l m = mom q l (- m).
Proof. unfold mom, fliplr. cbn [deg at_]. f_equal. ring. Qed.
Lemma io_total q Q a b g v c : (1 <= deg q)%Z -> deg Q = deg q -> corners0 Q ->
  exists Q1 Q2 nlm nc ns nlm' nc' ns', rotate_qlm Q a b g = Ok Q1 /\ rec_translate_q2Q Q1 v = Ok Q2 /\
    torque q Q a b g v "inner-outer" c = Ok (nlm, nc, ns) /\ torque_lm q (if noflip v then fliplr Q2 else Q2) c = Ok (nlm', nc', ns') /\ total nlm = total nlm'.
Proof.
  intros HL DQ Hc. destruct (torque_io q Q a b g v c HL DQ) as (ds & q'' & nlm & nc & ns & Ed & E & Ht & Dq' & H).
  destruct (H Q DQ) as (p2 & Ep & Edot). rewrite <- DQ in Ed. destruct (place_io Q a b g v ds p2 ltac:(lia) Hc Ed Ep) as (Q1 & Q2 & E1 & E2 & S & D2 & C2).
  set (Q3 := if noflip v then fliplr Q2 else Q2). assert (D3 : deg Q3 = deg q) by (unfold Q3; destruct (noflip v); cbn [deg fliplr]; lia).
  assert (C3 : corners0 Q3).
  { unfold Q3. destruct (noflip v); [|exact C2]. intros l m Hl Hm. cbn [deg fliplr] in *. rewrite fliplr_mom. apply C2; lia. }
  destruct (torque_lm_ok q Q3 c ltac:(lia) D3) as (n' & c' & s' & E' & Ht'). exists Q1, Q2, nlm, nc, ns, n', c', s'.
  split; [exact E1|]. split; [exact E2|]. split; [exact E|]. split; [exact E'|].
  rewrite (total_dot_r (deg q) (KG c) q'' Q nlm nc ns ltac:(lia) DQ Ht Hc).
  rewrite (total_dot_r (deg q) (KG c) q (Qw Q3) n' c' s' ltac:(lia) D3 Ht'); [|intros l m Hl Hm; rewrite Qw_mom, C3 by (exact Hl || exact Hm); ring].
  f_equal. rewrite (dot_sym _ q'' Q), Edot, (dot_Qw _ q Q3), (dot_sym _ (Qw q) Q3). apply dot_ext; [|reflexivity]. intros l m Hl Hm. unfold Q3. destruct S as [DS HS].
  destruct (noflip v); [rewrite !fliplr_mom|]; apply HS; lia.
Qed.
(* 'inner-outer' away from the positive z axis: the total is that of torque_lm of q with the outer moments of the
   source rotated by the Euler angles and displaced by rvec *)
Theorem C33_inner_outer : forall q Q a b g v c, (1 <= deg q)%Z -> deg Q = deg q -> corners0 Q -> ~ above v ->
  exists Q1 Q2 nlm nc ns nlm' nc' ns', rotate_qlm Q a b g = Ok Q1 /\ rec_translate_q2Q Q1 v = Ok Q2 /\
    torque q Q a b g v "inner-outer" c = Ok (nlm, nc, ns) /\ torque_lm q Q2 c = Ok (nlm', nc', ns') /\ total nlm = total nlm'.
Proof.
  intros q Q a b g v c HL DQ Hc Hv. destruct (io_total q Q a b g v c HL DQ Hc) as (Q1 & Q2 & H).
  exists Q1, Q2. destruct (noflip v) eqn:N; [apply above_noflip in N; contradiction|exact H].
Qed.
(* on the positive z axis the code forgets to flip the columns m -> -m *)
Theorem C33_inner_outer_on_axis : forall q Q a b g v c, (1 <= deg q)%Z -> deg Q = deg q -> corners0 Q -> above v ->
  exists Q1 Q2 nlm nc ns nlm' nc' ns', rotate_qlm Q a b g = Ok Q1 /\ rec_translate_q2Q Q1 v = Ok Q2 /\
    torque q Q a b g v "inner-outer" c = Ok (nlm, nc, ns) /\ torque_lm q (fliplr Q2) c = Ok (nlm', nc', ns') /\ total nlm = total nlm'.
Proof.
  intros q Q a b g v c HL DQ Hc Hv. destruct (io_total q Q a b g v c HL DQ Hc) as (Q1 & Q2 & H).
  exists Q1, Q2. rewrite (proj2 (above_noflip v) Hv) in H. exact H.
Qed.
(* 'outer-outer': rotates the source correctly, but displaces it by (x, -y, z) instead of (x, y, z) *)
Theorem C33_outer_outer_is_mirrored : forall q Q a b g x y z c, (1 <= deg q)%Z -> deg Q = deg q -> corners0 Q ->
  exists Q1 Q2 nlm nc ns nlm' nc' ns', rotate_qlm Q (- a) b (- g) = Ok Q1 /\ rec_translate_Qlmb Q1 (x, - y, z)%R = Ok Q2 /\
    torque q Q a b g (x, y, z) "outer-outer" c = Ok (nlm, nc, ns) /\ torque_lm q Q2 c = Ok (nlm', nc', ns') /\ total nlm = total nlm'.
Proof.
  intros q Q a b g x y z c HL DQ Hc. destruct (torque_oo q Q a b g (x, y, z) c HL DQ) as (ds & q'' & nlm & nc & ns & Ed & E & Ht & Dq' & H).
  destruct (H Q DQ) as (p2 & Ep & Edot). rewrite <- DQ in Ed. destruct (place_oo Q (- a) b (- g) (x, y, z) ds p2 ltac:(lia) Hc Ed Ep) as (Q1 & Q2 & E1 & E2 & S & D2 & C2).
  assert (D3 : deg Q2 = deg q) by lia.
  destruct (torque_lm_ok q Q2 c ltac:(lia) D3) as (n' & c' & s' & E' & Ht'). exists Q1, Q2, nlm, nc, ns, n', c', s'.
  split; [exact E1|]. split; [exact E2|]. split; [exact E|]. split; [exact E'|].
  rewrite (total_dot_r (deg q) (KG c) q'' Q nlm nc ns ltac:(lia) DQ Ht Hc).
  rewrite (total_dot_r (deg q) (KG c) q (Qw Q2) n' c' s' ltac:(lia) D3 Ht'); [|intros l m Hl Hm; rewrite Qw_mom, C2 by (exact Hl || exact Hm); ring].
  f_equal. rewrite (dot_sym _ q'' Q), Edot, (dot_Qw _ q Q2), (dot_sym _ (Qw q) Q2). apply dot_ext; [|reflexivity]. intros l m Hl Hm. apply S; rewrite (proj1 S); lia.
Qed.
(* hence it is right when the displacement has no y component *)
Theorem C33_outer_outer_in_the_xz_plane : forall q Q a b g x z c, (1 <= deg q)%Z -> deg Q = deg q -> corners0 Q ->
  exists Q1 Q2 nlm nc ns nlm' nc' ns', rotate_qlm Q (- a) b (- g) = Ok Q1 /\ rec_translate_Qlmb Q1 (x, 0, z)%R = Ok Q2 /\
    torque q Q a b g (x, 0, z)%R "outer-outer" c = Ok (nlm, nc, ns) /\ torque_lm q Q2 c = Ok (nlm', nc', ns') /\ total nlm = total nlm'.
Proof.
  intros q Q a b g x z c H H0 H1. assert (G := C33_outer_outer_is_mirrored q Q a b g x 0 z c H H0 H1). rewrite Ropp_0 in G. exact G.
Qed.

(* the two deviations change the result: witnesses *)
Definition arr1 (L : Z) (u w : C) : marr :=
  mkarr L (fun i j => if ((i =? 1) && (j =? L + 1))%bool%Z then u else if ((i =? 1) && (j =? L - 1))%bool%Z then w else 0).
Lemma arr1_mom L u w l m : mom (arr1 L u w) l m = if ((l =? 1) && (m =? 1))%bool%Z then u else if ((l =? 1) && (m =? - (1)))%bool%Z then w else 0.
Proof.
  unfold mom, arr1. cbn [deg at_]. replace (L + m =? L + 1)%Z with (m =? 1)%Z by (destruct (Z.eqb_spec m 1), (Z.eqb_spec (L + m) (L + 1)); lia || reflexivity).
  now replace (L + m =? L - 1)%Z with (m =? - (1))%Z by (destruct (Z.eqb_spec m (- (1))), (Z.eqb_spec (L + m) (L - 1)); lia || reflexivity).
Qed.
Lemma arr1_ok L u w : (1 <= L)%Z -> w = - Cconj u -> reality (arr1 L u w) /\ corners0 (arr1 L u w).
Proof.
  intros HL ->. split.
  - intros l m Hl Hm. rewrite !arr1_mom. destruct (Z.eqb_spec l 1); cbn [andb]; [|rewrite Cconj_RtoC; ring].
    destruct (Z.eqb_spec m 1) as [->|]; [cbn [Z.eqb Z.opp Pos.eqb]; rewrite sgnC_1; ring|].
    destruct (Z.eqb_spec m (- (1))) as [->|]; [rewrite sgnC_opp, sgnC_1; cbn [Z.eqb Z.opp Pos.eqb]; rewrite Cconj_opp, Cconj_conj; ring|].
    rewrite (proj2 (Z.eqb_neq (- m) 1)), (proj2 (Z.eqb_neq (- m) (- (1)))) by lia. rewrite Cconj_RtoC. ring.
  - intros l m Hl Hm. rewrite arr1_mom. destruct (Z.eqb_spec l 1); cbn [andb]; [|reflexivity].
    rewrite (proj2 (Z.eqb_neq m 1)), (proj2 (Z.eqb_neq m (- (1)))) by lia. reflexivity.
Qed.
Lemma arr1_dot L u w B : (1 <= L)%Z -> dot L (arr1 L u w) (Qw B) = (u * mom B 1 1 - w * mom B 1 (- (1))) / RtoC 3.
Proof.
  intros HL. unfold dot. rewrite (zsum_single _ _ 1%Z); [|lia|].
  - change (- (1))%Z with (-1)%Z. change (1 + 1)%Z with (-1 + 1 + 1 + 1)%Z. rewrite !zsum_last by lia. rewrite zsum_empty by lia.
    rewrite !Qw_mom, !arr1_mom. cbn [Z.opp Z.eqb andb Pos.eqb Z.add Z.pos_sub Pos.pred_double Z.mul Pos.mul Pos.add]. 
    replace (RtoC (1 / 3 * -1)) with (- (1 / RtoC 3)) by (rewrite <- RtoC_div, <- RtoC_opp by lra; f_equal; lra).
    replace (RtoC (1 / 3 * 1)) with (1 / RtoC 3) by (rewrite <- RtoC_div by lra; f_equal; lra). unfold Cdiv. ring.
  - intros l Hl Hn. apply zsum_0. intros m Hm. rewrite arr1_mom, (proj2 (Z.eqb_neq l 1)) by lia. cbn [andb]. ring.
Qed.

Lemma rot_id q : (0 <= deg q)%Z -> exists q1, rotate_qlm q 0 0 0 = Ok q1 /\ same q1 q.
Proof.
  intros HL. destruct (rotate_qlm_mom q 0 0 0 HL) as (x & Ex & D & A & B). exists x. split; [exact Ex|]. split; [exact D|]. rewrite D. intros l m Hl Hm.
  destruct (Z_lt_le_dec l (Z.abs m)); [now apply B|]. rewrite (C25_z_rotation q 0 0 x HL Ex) by lia. rewrite Rplus_0_r, Rmult_0_r, Ropp_0, cexpi_0. ring.
Qed.
Lemma Ci_neq0 : Ci <> 0.
Proof. intros E. injection E. lra. Qed.
Lemma KG_neq0 : KG 1 <> 0.
Proof. unfold KG. apply Cmult_neq_0; [|apply Ci_neq0]. apply RtoC_neq0. assert (H := PI_RGT_0). intros ?. lra. Qed.
(* symmetric moments, source on the positive z axis: 'inner-outer' returns the opposite of the torque *)
Theorem C33_inner_outer_on_axis_wrong_sign : exists q Q v Q1 Q2 nlm nc ns nlm' nc' ns',
  reality q /\ corners0 q /\ reality Q /\ corners0 Q /\ above v /\
  rotate_qlm Q 0 0 0 = Ok Q1 /\ rec_translate_q2Q Q1 v = Ok Q2 /\
  torque q Q 0 0 0 v "inner-outer" 1 = Ok (nlm, nc, ns) /\ torque_lm q Q2 1 = Ok (nlm', nc', ns') /\
  total nlm = - total nlm' /\ total nlm' <> 0.
Proof.
  set (q := arr1 1 Ci Ci). set (Q := arr1 1 1 (RtoC (-1))). set (v := (0, 0, 1)%R : vec).
  destruct (arr1_ok 1 Ci Ci ltac:(lia)) as [Rq Cq]; [rewrite Cconj_Ci; ring|].
  destruct (arr1_ok 1 1 (RtoC (-1)) ltac:(lia)) as [RQ CQ]; [rewrite Cconj_RtoC; ring|].
  assert (Av : above v) by (unfold above, v; repeat split; lra).
  destruct (C33_inner_outer_on_axis q Q 0 0 0 v 1 ltac:(cbn; lia) eq_refl CQ Av) as (Q1 & Q2 & nlm & nc & ns & n2 & c2 & s2 & E1 & E2 & E3 & E4 & E5).
  destruct (rot_id Q ltac:(cbn; lia)) as (Q1' & E1' & S1). rewrite E1 in E1'. injection E1' as <-. assert (D1 : deg Q1 = 1%Z) by (rewrite (proj1 S1); reflexivity).
  assert (Hv : vnorm v <> 0%R) by (intros H; apply vnorm_0_iff in H; injection H; lra).
  destruct (rec_q2Q_holds Q1 v ltac:(lia) Hv ltac:(left; lia)) as (x & Ex & D2 & [H2 C2]). rewrite E2 in Ex. injection Ex as <-.
  destruct (torque_lm_ok q Q2 1 ltac:(cbn; lia) ltac:(cbn; lia)) as (n' & c' & s' & E' & Ht').
  exists q, Q, v, Q1, Q2, nlm, nc, ns, n', c', s'. do 9 (split; [assumption|]).
  rewrite (total_dot (deg q) (KG 1) q (Qw Q2) n' c' s' ltac:(cbn; lia) eq_refl Ht' Cq).
  destruct (torque_lm_ok q (fliplr Q2) 1 ltac:(cbn; lia) ltac:(cbn; lia)) as (n3 & c3 & s3 & E6 & Ht3). rewrite E4 in E6. injection E6 as <- <- <-.
  rewrite E5, (total_dot (deg q) (KG 1) q (Qw (fliplr Q2)) n2 c2 s2 ltac:(cbn; lia) eq_refl Ht3 Cq). unfold q. cbn [deg arr1]. rewrite !arr1_dot by lia. rewrite !fliplr_mom.
  change (- - (1))%Z with 1%Z. split; [unfold Cdiv; ring|].
  assert (T : forall M, (M = 1 \/ M = - (1))%Z -> mom Q2 1 M = RtoC (3 / nrm 1 1) * (- mom Q 1 (- M) / RtoC (nrm 1 1) * RtoC (zfact 2 / (4 * PI)))).
  { intros M HM. rewrite H2 by lia. unfold Tq2Q. rewrite D1. change (1 + 1)%Z with 2%Z. rewrite (zsum_single _ _ 1%Z); [|lia|].
    - rewrite (zsum_single _ _ (- M)%Z); [|lia|].
      + unfold v. rewrite I_axis by (lia || lra). replace (M + - M)%Z with 0%Z by ring. rewrite Z.eqb_refl, sgnC_1, hq_in by lia. rewrite (proj2 S1) by lia.
        rewrite nrm_opp. replace (nrm 1 M) with (nrm 1 1) by (destruct HM as [->| ->]; [reflexivity|now rewrite nrm_opp]).
        replace (2 * 1 + 1)%R with 3%R by ring. rewrite pow1, Rmult_1_r. change (1 + 1)%Z with 2%Z. unfold Cdiv. ring.
      + intros m Hm Hn. unfold v. rewrite I_axis by (lia || lra). rewrite (proj2 (Z.eqb_neq (M + m) 0)) by lia. ring.
    - intros l Hl Hn. apply zsum_0. intros m Hm. assert (l = 0)%Z as -> by lia. assert (m = 0)%Z as -> by lia. rewrite hq_in by lia. rewrite (proj2 S1) by lia. unfold Q. rewrite arr1_mom. cbn. unfold Cdiv. ring. }
  rewrite (T 1%Z (or_introl eq_refl)), (T (- (1))%Z (or_intror eq_refl)). unfold Q. rewrite !arr1_mom. cbn [Z.eqb Z.opp Pos.eqb andb].
  assert (NZ : nrm 1 1 <> 0%R) by (apply nrm_neq0; lia). assert (P0 := PI_RGT_0). assert (F2 : (zfact 2 <> 0)%R) by apply zfact_neq0.
  apply Cmult_neq_0; [apply KG_neq0|].
  match goal with |- ?t <> _ => replace t with (Ci * RtoC (3 / nrm 1 1 * (2 / nrm 1 1) * (zfact 2 / (4 * PI)) / 3)) end.
  - apply Cmult_neq_0; [apply Ci_neq0|]. apply RtoC_neq0. assert (F3 := zfact_pos 2).
    unfold Rdiv. repeat apply Rmult_integral_contrapositive_currified; try apply Rinv_neq_0_compat; try assumption; try (intros ?; lra).
  - set (F := (zfact 2 / (4 * PI))%R). set (k := nrm 1 1) in *.
    rewrite (RtoC_div (3 / k * (2 / k) * F) 3) by lra. rewrite (RtoC_mult (3 / k * (2 / k)) F), (RtoC_mult (3 / k) (2 / k)), !(RtoC_div _ k) by assumption. field. exact (RtoC_neq0 k NZ).
Qed.

Lemma S_11 x y z : S_ 1 1 (x, y, z) = - (RtoC x - Ci * RtoC y) / RtoC 2 /\ S_ 1 (- (1)) (x, y, z) = (RtoC x + Ci * RtoC y) / RtoC 2.
Proof.
  assert (E := S_sect 1 x y z ltac:(lia)). change (2 * 1)%Z with 2%Z in E. change (1 - 1)%Z with 0%Z in E.
  assert (E0 : S_ 0 0 (x, y, z) = 1) by apply solid_00. rewrite E0 in E. assert (N2 : RtoC 2 <> 0) by (apply RtoC_neq0; lra).
  assert (A : S_ 1 1 (x, y, z) = - (RtoC x - Ci * RtoC y) / RtoC 2).
  { transitivity (RtoC 2 * S_ 1 1 (x, y, z) / RtoC 2); [field; exact N2|]. rewrite E. f_equal. ring. }
  split; [exact A|]. rewrite S_symm, A, sgnC_1, Cconj_div, Cconj_opp, Cconj_minus, Cconj_mult, Cconj_Ci, !Cconj_RtoC. field.
Qed.
(* symmetric moments, a displacement along y: 'outer-outer' returns the opposite of the torque *)
Definition ex20 : marr := mkarr 2 (fun i j => if ((i =? 2) && (j =? 2))%bool%Z then 1 else 0).
Lemma ex20_mom l m : mom ex20 l m = if ((l =? 2) && (m =? 0))%bool%Z then 1 else 0.
Proof. unfold mom, ex20. cbn [deg at_]. now replace (2 + m =? 2)%Z with (m =? 0)%Z by (destruct (Z.eqb_spec m 0), (Z.eqb_spec (2 + m) 2); lia || reflexivity). Qed.
Lemma ex20_ok : reality ex20 /\ corners0 ex20.
Proof.
  split.
  - intros l m Hl Hm. rewrite !ex20_mom. destruct (Z.eqb_spec l 2), (Z.eqb_spec m 0), (Z.eqb_spec (- m) 0); try lia; cbn [andb]; rewrite Cconj_RtoC; try ring.
    subst. rewrite sgnC_0. ring.
  - intros l m Hl Hm. rewrite ex20_mom. cbn [deg ex20] in *. destruct (Z.eqb_spec l 2), (Z.eqb_spec m 0); try lia; reflexivity.
Qed.
Lemma ex20_moved y Q1 Q2 : y <> 0%R -> rotate_qlm ex20 (- 0) 0 (- 0) = Ok Q1 -> rec_translate_Qlmb Q1 (0, y, 0)%R = Ok Q2 -> deg Q2 = 2%Z /\
  forall M, (M = 1 \/ M = - (1))%Z -> mom Q2 1 M = - (RtoC (3 / nrm 1 1) * (RtoC (nrm 2 0 / 5) * (Ci * RtoC y / RtoC 2))).
Proof.
  intros Hy E1 E2. rewrite Ropp_0 in E1. destruct (rot_id ex20 ltac:(cbn; lia)) as (Q1' & E1' & S1). rewrite E1 in E1'. injection E1' as <-. assert (D1 : deg Q1 = 2%Z) by (rewrite (proj1 S1); reflexivity).
  assert (Hv : vnorm (0, y, 0)%R <> 0%R) by (intros H; apply vnorm_0_iff in H; injection H; intros; lra).
  destruct (rec_Qlmb_holds Q1 (0, y, 0)%R ltac:(lia) Hv ltac:(left; lia)) as (x & Ex & D2 & [H2 C2]). rewrite E2 in Ex. injection Ex as <-. split; [lia|].
  intros M HM. rewrite H2 by lia. unfold Tout. rewrite D1. rewrite (zsum_single _ _ 2%Z); [|lia|].
  - rewrite (zsum_single _ _ 0%Z); [|lia|].
    + rewrite hQ_in by lia. rewrite (proj2 S1) by lia. rewrite ex20_mom. cbn [Z.eqb Pos.eqb andb]. unfold vopp. change (2 - 1)%Z with 1%Z. replace (2 * 2 + 1)%R with 5%R by ring. replace (2 * 1 + 1)%R with 3%R by ring.
      destruct (S_11 (- 0) (- y) (- 0)) as [A B]. assert (N2 : RtoC 2 <> 0) by (apply RtoC_neq0; lra).
      destruct HM as [->| ->].
      * change (0 - 1)%Z with (- (1))%Z. rewrite B, Ropp_0, RtoC_opp. field.
      * change (0 - - (1))%Z with 1%Z. rewrite A, Ropp_0, RtoC_opp, nrm_opp. field.
    + intros m Hm Hn. unfold hQ. destruct (Z.leb_spec (Z.abs m) 2); [|ring]. rewrite (proj2 S1), ex20_mom by lia. rewrite (proj2 (Z.eqb_neq m 0)) by lia. cbn [Z.eqb Pos.eqb andb]. ring.
  - intros l Hl Hn. apply zsum_0. intros m Hm. unfold hQ. destruct (Z.leb_spec (Z.abs m) l); [|ring]. rewrite (proj2 S1), ex20_mom by lia. rewrite (proj2 (Z.eqb_neq l 2)) by lia. cbn [andb]. ring.
Qed.
Theorem C33_outer_outer_wrong_sign : exists q Q v Q1 Q2 nlm nc ns nlm' nc' ns',
  reality q /\ corners0 q /\ reality Q /\ corners0 Q /\
  rotate_qlm Q (- 0) 0 (- 0) = Ok Q1 /\ rec_translate_Qlmb Q1 v = Ok Q2 /\
  torque q Q 0 0 0 v "outer-outer" 1 = Ok (nlm, nc, ns) /\ torque_lm q Q2 1 = Ok (nlm', nc', ns') /\
  total nlm = - total nlm' /\ total nlm' <> 0.
Proof.
  set (q := arr1 2 1 (RtoC (-1))). destruct (arr1_ok 2 1 (RtoC (-1)) ltac:(lia)) as [Rq Cq]; [rewrite Cconj_RtoC; ring|]. destruct ex20_ok as [RQ CQ].
  destruct (C33_outer_outer_is_mirrored q ex20 0 0 0 0 1 0 1 ltac:(cbn; lia) eq_refl CQ) as (Q1 & Q3 & nlm & nc & ns & n2 & c2 & s2 & E1 & E2 & E3 & E4 & E5).
  assert (N1 : (-1 <> 0)%R) by (intros ?; lra). assert (N3 : (1 <> 0)%R) by (intros ?; lra). destruct (ex20_moved (-1) Q1 Q3 N1 E1 E2) as [D3 T3].
  destruct (rot_id ex20 ltac:(cbn; lia)) as (Q1' & E1' & S1). assert (X := E1). rewrite Ropp_0 in X. rewrite X in E1'. injection E1' as <-. assert (D1 : deg Q1 = 2%Z) by (rewrite (proj1 S1); reflexivity).
  assert (Hv : vnorm (0, 1, 0)%R <> 0%R) by (intros H; apply vnorm_0_iff in H; injection H; intros; lra).
  destruct (rec_Qlmb_holds Q1 (0, 1, 0)%R ltac:(lia) Hv ltac:(left; lia)) as (Q2 & F2 & _). destruct (ex20_moved 1 Q1 Q2 N3 E1 F2) as [D2 T2].
  destruct (torque_lm_ok q Q2 1 ltac:(cbn; lia) ltac:(cbn; lia)) as (n' & c' & s' & E' & Ht').
  exists q, ex20, (0, 1, 0)%R, Q1, Q2, nlm, nc, ns, n', c', s'. do 8 (split; [assumption|]).
  rewrite (total_dot (deg q) (KG 1) q (Qw Q2) n' c' s' ltac:(cbn; lia) eq_refl Ht' Cq).
  destruct (torque_lm_ok q Q3 1 ltac:(cbn; lia) ltac:(cbn; lia)) as (n3 & c3 & s3 & E6 & Ht3). rewrite E4 in E6. injection E6 as <- <- <-.
  rewrite E5, (total_dot (deg q) (KG 1) q (Qw Q3) n2 c2 s2 ltac:(cbn; lia) eq_refl Ht3 Cq). unfold q. cbn [deg arr1]. rewrite !arr1_dot by lia.
  rewrite (T2 1%Z (or_introl eq_refl)), (T2 (- (1))%Z (or_intror eq_refl)), (T3 1%Z (or_introl eq_refl)), (T3 (- (1))%Z (or_intror eq_refl)).
  split; [unfold Cdiv; ring|]. assert (NZ : nrm 1 1 <> 0%R) by (apply nrm_neq0; lia). assert (NZ2 : nrm 2 0 <> 0%R) by (apply nrm_neq0; lia).
  apply Cmult_neq_0; [apply KG_neq0|].
  match goal with |- ?t <> _ => replace t with (Ci * RtoC (3 / nrm 1 1) * RtoC (nrm 2 0 / 5) * (- (1 / RtoC 3))) end.
  - repeat apply Cmult_neq_0; [apply Ci_neq0| | |].
    + apply RtoC_neq0. unfold Rdiv. apply Rmult_integral_contrapositive_currified; [intros ?; lra|now apply Rinv_neq_0_compat].
    + apply RtoC_neq0. unfold Rdiv. apply Rmult_integral_contrapositive_currified; [assumption|apply Rinv_neq_0_compat; intros ?; lra].
    + rewrite <- RtoC_div, <- RtoC_opp by (intros ?; lra). apply RtoC_neq0. intros ?. lra.
  - field.
Qed.
Example C33_case : (1 <= deg exd)%Z /\ corners0 exd /\ reality exd /\ ~ above (1, 2, 3)%R /\ above (0, 0, 2)%R.
Proof.
  destruct exd_ok as (H1 & H2 & H3 & _). split; [exact H1|]. split; [exact H3|]. split; [exact H2|]. split.
  - intros (H & _). lra.
  - split; [reflexivity|]. split; [reflexivity|]. lra.
Qed.
Print Assumptions C33_inner_inner.
Print Assumptions C33_inner_outer.
Print Assumptions C33_outer_outer_is_mirrored.
Print Assumptions C33_inner_outer_on_axis_wrong_sign.
Print Assumptions C33_outer_outer_wrong_sign.
