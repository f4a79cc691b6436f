(* C28-C34 and the torque part of C26: multipoleLib.py *)
From Coq Require Import String.
From Verif Require Import MultipoleProofs2.
From Verif Require Import Cplx.
Open Scope C_scope.

(* ---- C28: force_basis is the gradient of the solid harmonics ---- *)
Theorem C28_force_basis_is_gradient : forall L x y z, (1 <= L)%Z ->
  exists bX bY bZ, force_basis L x y z = Ok (bX, bY, bZ) /\ deg bX = L /\ deg bY = L /\ deg bZ = L /\
  (forall l m, (0 <= l <= L)%Z -> (Z.abs m <= l)%Z ->
     cgrad (fun v => let '(a, b, c) := v in solid l m a b c) (x, y, z) (mom bX l m) (mom bY l m) (mom bZ l m)) /\
  corners0 bX /\ corners0 bY /\ corners0 bZ.
Proof.
  intros L x y z HL. destruct (force_basis_ok L x y z ltac:(lia) ltac:(lia)) as (bX & bY & bZ & E & D1 & D2 & D3 & [A1 B1] & [A2 B2] & [A3 B3]).
  exists bX, bY, bZ. do 4 (split; [assumption|]). split; [|now split; [|split]].
  intros l m Hl Hm. rewrite A1, A2, A3 by lia. exact (S_grad3 l m x y z).
Qed.
Lemma solid_10 x y z : solid 1 0 x y z = RtoC z.
Proof.
  assert (E := S_rec 1 0 x y z). change (1 ^ 2 - 0 ^ 2)%Z with 1%Z in E. change (2 * 1 - 1)%Z with 1%Z in E. change (1 - 1)%Z with 0%Z in E.
  rewrite (S_neg (1 - 2)) in E by lia. Transparent S_. unfold S_ in E. rewrite solid_00 in E. transitivity (RtoC (IZR 1) * solid 1 0 x y z); [ring|]. rewrite E. ring.
Qed.
(* a concrete entry, the gradient of S_1^0 = z *)
Example C28_case : exists bX bY bZ, force_basis 3 1 2 (-1) = Ok (bX, bY, bZ) /\ mom bZ 1 0 = 1 /\ mom bX 1 0 = 0.
Proof.
  destruct (C28_force_basis_is_gradient 3 1 2 (-1) ltac:(lia)) as (bX & bY & bZ & E & _ & _ & _ & G & _).
  exists bX, bY, bZ. split; [exact E|]. destruct (G 1%Z 0%Z ltac:(lia) ltac:(lia)) as (Gx & _ & Gz). split.
  - eapply cder_unique; [exact Gz|]. eapply (cder_ext RtoC); [|apply cder_id]. intros t. now rewrite solid_10.
  - eapply cder_unique; [exact Gx|]. eapply (cder_ext (fun _ => RtoC (-1))); [|apply cder_const]. intros t. now rewrite solid_10.
Qed.
Print Assumptions C28_force_basis_is_gradient.

(* ---- C29 ---- *)
Theorem C29_degree_zero : forall q Q x y z c, deg q = 0%Z -> deg Q = 0%Z ->
  ((x, y, z) = v0 -> force_basis 0 x y z = Err IndexError /\ multipole_force 0 q Q x y z c = Err IndexError /\
     multipole_force_m 0 q Q x y z c = Err IndexError) /\
  ((x, y, z) <> v0 -> (exists bX bY bZ, force_basis 0 x y z = Ok (bX, bY, bZ) /\ mom bX 0 0 = 0 /\ mom bY 0 0 = 0 /\ mom bZ 0 0 = 0) /\
     multipole_force 0 q Q x y z c = Ok c3zero).
Proof.
  intros q Q x y z c Dq DQ. split.
  - intros E. injection E as -> -> ->. assert (F : force_basis 0 0 0 0 = Err IndexError).
    { unfold force_basis. rewrite is0_true by reflexivity. reflexivity. }
    split; [exact F|]. unfold multipole_force, multipole_force_m. rewrite F. now split.
  - intros Hn. destruct (force_basis_ok 0 x y z ltac:(lia) ltac:(intros _; exact Hn)) as (bX & bY & bZ & E & D1 & D2 & D3 & [A1 B1] & [A2 B2] & [A3 B3]).
    destruct (Sd_deg0 0 (x, y, z)) as (S1 & S2 & S3).
    split.
    + exists bX, bY, bZ. split; [exact E|]. rewrite A1, A2, A3 by lia. now split; [|split].
    + rewrite (mf_ok 0 q Q x y z c bX bY bZ E). assert (Z0 : forall b, mf_sum 0 q Q c (fun _ => true) b = 0); [|now rewrite !Z0].
      intros b. unfold mf_sum. apply zsum_0. intros lo Hlo. apply zsum_0. intros mo Hmo. now rewrite zsum_empty by lia.
Qed.
Example C29_case : (1, 0, 0)%R <> v0 /\ deg (zeros 0) = 0%Z.
Proof. split; [|reflexivity]. intros E. injection E. lra. Qed.
Print Assumptions C29_degree_zero.

(* ---- C30: the force ---- *)
(* minus the potential energy of inner moments q in the field of outer moments Q, truncated at degree L *)
Definition work (c : R) (L : Z) (q Q : Z -> Z -> C) : C := RtoC (4 * PI * c) * pairing L q Q.
Lemma cgrad_ext F G v a b c : (forall w, F w = G w) -> cgrad F v a b c -> cgrad G v a b c.
Proof.
  intros H. destruct v as [[x y] z]. intros (H1 & H2 & H3). split; [|split].
  - eapply cder_ext; [|exact H1]. intros; apply H.
  - eapply cder_ext; [|exact H2]. intros; apply H.
  - eapply cder_ext; [|exact H3]. intros; apply H.
Qed.
Lemma pairing_Tin q p v Q : (0 <= deg q)%Z -> deg Q = deg q -> deg p = deg q -> holds p (fun L M => RtoC (nrm L M) * Tin (deg q) (hq q) v L M) ->
  pairing (deg q) (mom p) (mom Q) = hpair (deg q) (Tin (deg q) (hq q) v) (hQ Q).
Proof.
  intros HL DQ Dp H. rewrite pairing_hpair by lia. apply hpair_ext; [|reflexivity|apply Tin_supp; [lia|apply supp_hq]].
  intros l m Hl. destruct (Z_lt_le_dec l (Z.abs m)).
  - rewrite supp_hq by lia. symmetry. apply Tin_supp; [lia|apply supp_hq|lia].
  - apply hq_hold; rewrite ?Dp; assumption || lia.
Qed.
Theorem C30_force_is_gradient : forall q Q x y z c, (0 <= deg q)%Z -> deg Q = deg q -> reality q -> corners0 q ->
  (deg q = 0%Z -> (x, y, z) <> v0) ->
  exists fx fy fz, multipole_force (deg q) q Q x y z c = Ok (fx, fy, fz) /\
  cgrad (fun v => work c (deg q) (mom (translate_qlm q v)) (mom Q)) (x, y, z) fx fy fz.
Proof.
  intros q Q x y z c HL DQ Hr Hc H0. destruct (multipole_force_grad q Q x y z c HL DQ H0) as (fx & fy & fz & E & G).
  exists fx, fy, fz. split; [exact E|]. eapply cgrad_ext; [|exact G]. intros v. cbv beta. unfold work. f_equal.
  destruct (translate_qlm_holds q v HL Hr Hc) as [D H]. symmetry. now apply pairing_Tin.
Qed.
(* for arrays without any symmetry: the gradient along the recursive translation *)
Theorem C30_force_is_gradient_all_arrays : forall q Q x y z c T, (1 <= deg q)%Z -> deg Q = deg q ->
  (forall v, rec_translate_qlm q v = Ok (T v)) ->
  exists fx fy fz, multipole_force (deg q) q Q x y z c = Ok (fx, fy, fz) /\
  cgrad (fun v => work c (deg q) (mom (T v)) (mom Q)) (x, y, z) fx fy fz.
Proof.
  intros q Q x y z c T HL DQ HT. destruct (multipole_force_grad q Q x y z c ltac:(lia) DQ ltac:(lia)) as (fx & fy & fz & E & G).
  exists fx, fy, fz. split; [exact E|]. eapply cgrad_ext; [|exact G]. intros v. cbv beta. unfold work. f_equal.
  destruct (is0_cases (vnorm v)) as [[E0 Ez]|[E0 Ez]].
  - assert (F := HT v). unfold rec_translate_qlm in F. rewrite Ez in F. injection F as <-. rewrite pairing_hpair by lia.
    apply hpair_ext; [|reflexivity|apply supp_hq]. intros l m Hl. rewrite (proj1 (vnorm_0_iff v) E0).
    destruct (Z_lt_le_dec l (Z.abs m)); [rewrite Tin_supp by (apply supp_hq || lia); symmetry; apply supp_hq; lia|]. now rewrite Tin_0 by lia.
  - destruct (rec_qlm_holds q v ltac:(lia) E0 ltac:(left; lia)) as (p & Ep & Dp & Hp). rewrite HT in Ep. injection Ep as ->.
    symmetry. apply pairing_Tin; assumption || lia.
Qed.
(* a body of point masses P whose moments are q, in a field Q: the force is the gradient of minus the energy of the moved body *)
Theorem C30_force_on_a_body : forall q Q P x y z c, (0 <= deg q)%Z -> deg Q = deg q -> holds q (inner_moment P) ->
  (deg q = 0%Z -> (x, y, z) <> v0) ->
  exists fx fy fz, multipole_force (deg q) q Q x y z c = Ok (fx, fy, fz) /\
  cgrad (fun v => work c (deg q) (inner_moment (map (moved v) P)) (mom Q)) (x, y, z) fx fy fz.
Proof.
  intros q Q P x y z c HL DQ Hq H0. destruct (C30_force_is_gradient q Q x y z c HL DQ (reality_inner q P Hq) (proj2 Hq) H0) as (fx & fy & fz & E & G).
  exists fx, fy, fz. split; [exact E|]. eapply cgrad_ext; [|exact G]. intros v. cbv beta. unfold work. f_equal.
  destruct (translate_points q P v HL Hq) as [D [H _]]. unfold pairing. apply zsum_ext. intros l Hl. apply zsum_ext. intros m Hm. now rewrite H by lia.
Qed.
(* the pairing of symmetric moments is real *)
Lemma pairing_real L p Q : (L <= deg p)%Z -> (L <= deg Q)%Z -> reality p -> reality Q -> Im (pairing L (mom p) (mom Q)) = 0%R.
Proof.
  intros Hp HQ Rp RQ. apply Cconj_fix_real. unfold pairing. rewrite zsum_conj. apply zsum_ext. intros l Hl.
  rewrite zsum_conj, zsum_rev. replace (1 - (l + 1))%Z with (- l)%Z by ring. replace (1 - - l)%Z with (l + 1)%Z by ring.
  apply zsum_ext. intros m Hm. rewrite Rp, RQ by lia. rewrite Cconj_div, !Cconj_mult, !Cconj_conj, !sgnC_conj, Cconj_RtoC.
  replace (sgnC m * mom p l m * (sgnC m * mom Q l m)) with (sgnC m * sgnC m * (mom p l m * mom Q l m)) by ring. rewrite sgnC_sq. f_equal. ring.
Qed.
Lemma cder_real f x d : (forall t, Im (f t) = 0%R) -> cder f x d -> Im d = 0%R.
Proof.
  intros H [_ H2]. apply is_derive_unique in H2. rewrite <- H2. transitivity (Derive (fun _ : R => 0%R) x); [apply Derive_ext; exact H|apply Derive_const].
Qed.
Lemma work_real c L p Q : (L <= deg p)%Z -> (L <= deg Q)%Z -> reality p -> reality Q -> Im (work c L (mom p) (mom Q)) = 0%R.
Proof. intros. unfold work. assert (E := pairing_real L p Q). destruct (pairing L (mom p) (mom Q)) as [a b]. cbn in *. rewrite E by assumption. ring. Qed.
Theorem C30_force_is_real : forall q Q x y z c fx fy fz, (0 <= deg q)%Z -> deg Q = deg q -> reality q -> corners0 q -> reality Q ->
  multipole_force (deg q) q Q x y z c = Ok (fx, fy, fz) -> Im fx = 0%R /\ Im fy = 0%R /\ Im fz = 0%R.
Proof.
  intros q Q x y z c fx fy fz HL DQ Rq Cq RQ E.
  assert (H0 : deg q = 0%Z -> (x, y, z) <> v0).
  { intros D0 Ev. rewrite D0 in E. destruct (C29_degree_zero q Q x y z c D0 ltac:(lia)) as [F _]. destruct (F Ev) as (_ & F2 & _). congruence. }
  destruct (C30_force_is_gradient q Q x y z c HL DQ Rq Cq H0) as (gx & gy & gz & E' & (G1 & G2 & G3)). rewrite E in E'. injection E' as <- <- <-.
  assert (W : forall v, Im (work c (deg q) (mom (translate_qlm q v)) (mom Q)) = 0%R).
  { intros v. apply work_real; [|lia|now apply (translate_reality q v)|exact RQ]. rewrite (proj1 (translate_qlm_holds q v HL Rq Cq)). lia. }
  exact (conj (cder_real _ _ _ (fun t => W (t, y, z)) G1) (conj (cder_real _ _ _ (fun t => W (x, t, z)) G2) (cder_real _ _ _ (fun t => W (x, y, t)) G3))).
Qed.
(* multipole_force_m: column [mo] (python index) is the force on the order-mo part of q, and the columns sum to the force *)
Definition only (mo : Z) (q : marr) : marr := mkarr (deg q) (fun i j => if (j =? deg q + mo)%Z then at_ q i j else 0).
Lemma mf_sum_only L q Q c mo b : deg q = L -> mf_sum L (only mo q) Q c (fun _ => true) b = mf_sum L q Q c (fun k => (k =? mo)%Z) b.
Proof.
  intros D. unfold mf_sum. apply zsum_ext. intros lo _. apply zsum_ext. intros k _. apply zsum_ext. intros l _. apply zsum_ext. intros m _.
  unfold mf_fac, only. cbn [at_]. rewrite D.
  destruct (Z.eqb_spec k mo) as [->|N]; [now rewrite Z.eqb_refl|]. rewrite (proj2 (Z.eqb_neq (L + k) (L + mo))) by lia. unfold Cdiv. ring.
Qed.
Lemma mf_sum_sel_ext L q Q c s s' b : (forall k, (- L <= k <= L)%Z -> s k = s' k) -> mf_sum L q Q c s b = mf_sum L q Q c s' b.
Proof.
  intros H. unfold mf_sum. apply zsum_ext. intros lo Hlo. apply zsum_ext. intros k Hk. apply zsum_ext. intros l _. apply zsum_ext. intros m _. now rewrite H by lia.
Qed.
Lemma mf_sum_split L q Q c b : (0 <= L)%Z ->
  zsum 0 (2 * L + 1) (fun j => mf_sum L q Q c (fun mo => (j =? pyidx (2 * L + 1) mo)%Z) b) = mf_sum L q Q c (fun _ => true) b.
Proof.
  intros HL. unfold mf_sum. rewrite zsum_swap. apply zsum_ext. intros lo Hlo. rewrite zsum_swap. apply zsum_ext. intros mo Hmo.
  rewrite zsum_swap. apply zsum_ext. intros l Hl. rewrite zsum_swap. apply zsum_ext. intros m Hm.
  rewrite (zsum_single _ _ (pyidx (2 * L + 1) mo)).
  - now rewrite Z.eqb_refl.
  - unfold pyidx. destruct (Z.ltb_spec mo 0); lia.
  - intros j Hj Hn. now rewrite (proj2 (Z.eqb_neq j _)) by assumption.
Qed.
Definition sum3 (a b : Z) (F : Z -> C * C * C) : C * C * C :=
  (zsum a b (fun j => fst (fst (F j))), zsum a b (fun j => snd (fst (F j))), zsum a b (fun j => snd (F j))).
Theorem C30_force_by_order : forall q Q x y z c f, (0 <= deg q)%Z -> multipole_force (deg q) q Q x y z c = Ok f ->
  exists F, multipole_force_m (deg q) q Q x y z c = Ok F /\ sum3 0 (2 * deg q + 1) F = f /\
  forall mo, (- deg q <= mo <= deg q)%Z -> multipole_force (deg q) (only mo q) Q x y z c = Ok (F (pyidx (2 * deg q + 1) mo)).
Proof.
  intros q Q x y z c f HL E. destruct (force_basis (deg q) x y z) as [[[bX bY] bZ]|e] eqn:Eb; [|unfold multipole_force in E; rewrite Eb in E; discriminate].
  rewrite (mf_ok _ q Q x y z c bX bY bZ Eb) in E. injection E as <-.
  destruct (mfm_ok (deg q) q Q x y z c bX bY bZ Eb) as (F & EF & HF). cbv zeta in HF. exists F. split; [exact EF|]. split.
  - unfold sum3. rewrite (zsum_ext _ _ (fun j => fst (fst (F j))) _ (fun j _ => f_equal (fun u => fst (fst u)) (HF j))).
    rewrite (zsum_ext _ _ (fun j => snd (fst (F j))) _ (fun j _ => f_equal (fun u => snd (fst u)) (HF j))).
    rewrite (zsum_ext _ _ (fun j => snd (F j)) _ (fun j _ => f_equal (fun u => snd u) (HF j))). cbn [fst snd].
    now rewrite !mf_sum_split by assumption.
  - intros mo Hmo. rewrite (mf_ok (deg q) (only mo q) Q x y z c bX bY bZ Eb), HF. f_equal. rewrite !mf_sum_only by reflexivity.
    assert (X : forall b, mf_sum (deg q) q Q c (fun k => (k =? mo)%Z) b = mf_sum (deg q) q Q c (fun k => (pyidx (2 * deg q + 1) mo =? pyidx (2 * deg q + 1) k)%Z) b).
    { intros b. apply mf_sum_sel_ext. intros k Hk. unfold pyidx. destruct (Z.ltb_spec k 0), (Z.ltb_spec mo 0), (Z.eqb_spec k mo); symmetry; (apply Z.eqb_eq; lia) || (apply Z.eqb_neq; lia). }
    now rewrite !X.
Qed.
Example C30_case : (0 <= deg exd)%Z /\ reality exd /\ corners0 exd /\ exists fx fy fz, multipole_force (deg exd) exd exd 1 2 3 1 = Ok (fx, fy, fz).
Proof.
  destruct exd_ok as (H1 & H2 & H3 & _). split; [lia|]. split; [exact H2|]. split; [exact H3|].
  destruct (C30_force_is_gradient exd exd 1 2 3 1 ltac:(lia) eq_refl H2 H3 ltac:(intros E; cbn in E; lia)) as (a & b & d & E & _). eauto.
Qed.
Print Assumptions C30_force_is_gradient.
Print Assumptions C30_force_by_order.

(* ---- C34: embed_qlm ---- *)
Theorem C34_embed : forall q L, (0 <= deg q)%Z -> (0 <= L)%Z -> exists q', embed_qlm q L = EArr q' /\ deg q' = L /\
  (forall l m, (0 <= l <= L)%Z -> (Z.abs m <= L)%Z -> mom q' l m = if ((l <=? deg q) && (Z.abs m <=? deg q))%bool%Z then mom q l m else 0).
Proof.
  intros q L Hq HL. unfold embed_qlm. rewrite (proj2 (Z.ltb_ge L 0)) by lia.
  destruct (Z.ltb_spec L (deg q)).
  - eexists. split; [reflexivity|]. split; [reflexivity|]. intros l m Hl Hm. unfold mom. cbn [deg at_].
    destruct (Z.leb_spec l (deg q)), (Z.leb_spec (Z.abs m) (deg q)); try lia. cbn [andb]. f_equal. ring.
  - destruct (Z.eqb_spec L (deg q)) as [->|].
    + eexists. split; [reflexivity|]. split; [reflexivity|]. intros l m Hl Hm.
      destruct (Z.leb_spec l (deg q)), (Z.leb_spec (Z.abs m) (deg q)); try lia. reflexivity.
    + eexists. split; [reflexivity|]. split; [reflexivity|]. intros l m Hl Hm. unfold mom. cbn [deg at_].
      destruct (Z.leb_spec l (deg q)), (Z.leb_spec (Z.abs m) (deg q)), (Z.ltb_spec l (deg q + 1)), (Z.leb_spec (L - deg q) (L + m)), (Z.ltb_spec (L + m) (L + deg q + 1)); try lia; cbn [andb]; try reflexivity.
      f_equal. ring.
Qed.
Theorem C34_up_then_down : forall q L, (0 <= deg q <= L)%Z -> exists q' q2, embed_qlm q L = EArr q' /\ embed_qlm q' (deg q) = EArr q2 /\ same q2 q.
Proof.
  intros q L HL. destruct (C34_embed q L ltac:(lia) ltac:(lia)) as (q' & E & D & H).
  destruct (C34_embed q' (deg q) ltac:(lia) ltac:(lia)) as (q2 & E2 & D2 & H2). exists q', q2. split; [exact E|]. split; [exact E2|].
  split; [exact D2|]. rewrite D2. intros l m Hl Hm. rewrite H2, H by lia.
  destruct (Z.leb_spec l (deg q')), (Z.leb_spec (Z.abs m) (deg q')), (Z.leb_spec l (deg q)), (Z.leb_spec (Z.abs m) (deg q)); try lia; reflexivity.
Qed.
Theorem C34_same_degree_and_negative : forall q L, embed_qlm q (deg q) = (if (deg q <? 0)%Z then EZero else EArr q) /\ ((L < 0)%Z -> embed_qlm q L = EZero).
Proof.
  intros q L. unfold embed_qlm. split.
  - destruct (deg q <? 0)%Z; [reflexivity|]. now rewrite Z.ltb_irrefl, Z.eqb_refl.
  - intros H. now rewrite (proj2 (Z.ltb_lt L 0)) by lia.
Qed.
(* embedding keeps what the moments mean: it preserves the interaction with a field of the smaller degree, and the symmetry *)
Theorem C34_embed_keeps_symmetry : forall q L q', (0 <= deg q)%Z -> (0 <= L)%Z -> embed_qlm q L = EArr q' ->
  (reality q -> reality q') /\ (corners0 q -> corners0 q').
Proof.
  intros q L q' Hq HL E. destruct (C34_embed q L Hq HL) as (x & Ex & D & H). rewrite E in Ex. injection Ex as <-. split.
  - intros R l m Hl Hm. rewrite D in *. rewrite !H by lia. rewrite Z.abs_opp.
    destruct (Z.leb_spec l (deg q)), (Z.leb_spec (Z.abs m) (deg q)); cbn [andb]; [apply R; lia| | |]; rewrite Cconj_RtoC; ring.
  - intros R l m Hl Hm. rewrite D in *. rewrite H by lia.
    destruct (Z.leb_spec l (deg q)), (Z.leb_spec (Z.abs m) (deg q)); cbn [andb]; try reflexivity. apply R; lia.
Qed.
Example C34_case : exists q', embed_qlm exd 5 = EArr q' /\ mom q' 1 0 = 1 /\ mom q' 4 0 = 0.
Proof.
  destruct (C34_embed exd 5 ltac:(cbn; lia) ltac:(lia)) as (q' & E & D & H). exists q'. split; [exact E|]. rewrite !H by lia. cbn. split; reflexivity.
Qed.
Print Assumptions C34_embed.
