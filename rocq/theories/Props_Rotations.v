(* C23-C27, part of C11 *)
From Verif Require Import RotationsProofs2 GlibProofs2 TransSpec.
From Verif Require Import Cplx.
Open Scope C_scope.

(* ---- C23: rotating the moments of a body = moments of the rotated body ---- *)
Lemma rpa_euler P al be ga P1 P2 P3 :
  rotate_point_array (Rows P) ga (0, 0, 1)%R = Ok (Rows P1) -> rotate_point_array (Rows P1) be (0, 1, 0)%R = Ok (Rows P2) ->
  rotate_point_array (Rows P2) al (0, 0, 1)%R = Ok (Rows P3) -> P3 = map (fun p => mkpt (pm p) (euler al be ga (pp p))) P.
Proof.
  assert (Nz : (0, 0, 1)%R <> v0) by (intros E; injection E; lra).
  assert (Ny : (0, 1, 0)%R <> v0) by (intros E; injection E; lra).
  rewrite !rotate_array_spec by assumption. intros E1 E2 E3. injection E1 as <-. injection E2 as <-. injection E3 as <-.
  rewrite !map_map. apply map_ext. intros [m [[x y] z]]. cbn [pm pp]. f_equal. unfold euler, zrot, yrot.
  now rewrite axis_rot_z, axis_rot_y, axis_rot_z.
Qed.
(* the body is turned with rotate_point_array by gamma about z, then beta about y, then alpha about z *)
Theorem C23_rotate_qlm_turns_the_body : forall L P alpha beta gamma P1 P2 P3 q q', (0 <= L)%Z ->
  rotate_point_array (Rows P) gamma (0, 0, 1)%R = Ok (Rows P1) ->
  rotate_point_array (Rows P1) beta (0, 1, 0)%R = Ok (Rows P2) ->
  rotate_point_array (Rows P2) alpha (0, 0, 1)%R = Ok (Rows P3) ->
  qmoments L P = Ok q -> qmoments L P3 = Ok q' ->
  exists q2, rotate_qlm q alpha beta gamma = Ok q2 /\ same q2 q'.
Proof.
  intros L P al be ga P1 P2 P3 q q' HL E1 E2 E3 Hq Hq'. assert (E := rpa_euler _ _ _ _ _ _ _ E1 E2 E3). subst P3.
  destruct (qmoments_ok _ _ _ HL Hq) as [D H]. destruct (qmoments_ok _ _ _ HL Hq') as [D' H'].
  destruct (rotate_points q P al be ga ltac:(lia) H) as (q2 & E & D2 & H2). exists q2. split; [exact E|].
  eapply holds_same; [congruence|exact H2|exact H'].
Qed.
(* the same for any array known to hold the inner moments of P; the rotation is spelled out *)
Theorem C23_rotated_moments : forall q P alpha beta gamma, (0 <= deg q)%Z -> holds q (inner_moment P) ->
  exists q', rotate_qlm q alpha beta gamma = Ok q' /\ deg q' = deg q /\
  holds q' (inner_moment (map (fun p => mkpt (pm p) (zrot alpha (yrot beta (zrot gamma (pp p))))) P)).
Proof. exact rotate_points. Qed.
(* applied to OUTER moments, rotate_qlm turns the body by (-alpha, beta, -gamma) instead *)
Theorem C23_rotate_qlm_on_outer_moments : forall Q P alpha beta gamma, (0 <= deg Q)%Z -> holds Q (outer_moment P) ->
  exists Q', rotate_qlm Q alpha beta gamma = Ok Q' /\ deg Q' = deg Q /\
  holds Q' (outer_moment (map (fun p => mkpt (pm p) (zrot (- alpha) (yrot beta (zrot (- gamma) (pp p))))) P)).
Proof. exact rotate_outer_points. Qed.
(* outer moments of the turned body: rotate_qlm_Ds_right with the conjugate transpose *)
Theorem C23_outer_moments_turn_with_Ds_right : forall Q P alpha beta gamma ds, (1 <= deg Q)%Z -> holds Q (outer_moment P) ->
  wignerDl (deg Q) alpha beta gamma = Ok ds ->
  holds (rotate_qlm_Ds_right Q ds true) (outer_moment (map (fun p => mkpt (pm p) (zrot alpha (yrot beta (zrot gamma (pp p))))) P)).
Proof.
  intros Q P a b g ds HL [H1 H2] E. destruct (wignerDl_DD (deg Q) a b g HL) as (ds' & E' & Hl & HD). rewrite E in E'. injection E' as <-.
  destruct (Ds_right_mom Q ds true (DD a b g) ltac:(lia) Hl HD) as (Ed & E1 & E2). cbv zeta in *. split.
  - rewrite Ed. intros l m Hl' Hm. change (fun p => mkpt (pm p) (zrot a (yrot b (zrot g (pp p))))) with (fun p => mkpt (pm p) (euler a b g (pp p))).
    rewrite outer_euler by lia. destruct (Z.eq_dec l 0) as [->|].
    + rewrite E2, H1 by lia. replace m with 0%Z by lia. rewrite zsum_first, zsum_empty by lia. simpl (- 0)%Z. rewrite DD_0, Cconj_RtoC. ring.
    + rewrite E1 by lia. apply zsum_ext. intros k Hk. now rewrite H1 by lia.
  - intros l m Hl' Hm. rewrite Ed in *. rewrite E2 by lia. apply H2; lia.
Qed.
Definition exP : list pt := mkpt 2 (1, 0, 3)%R :: mkpt 3 (0, -1, 2)%R :: nil.
Example C23_case : exists P1 P2 P3 q q',
  rotate_point_array (Rows exP) 3 (0, 0, 1)%R = Ok (Rows P1) /\ rotate_point_array (Rows P1) 2 (0, 1, 0)%R = Ok (Rows P2) /\
  rotate_point_array (Rows P2) 1 (0, 0, 1)%R = Ok (Rows P3) /\ qmoments 4 exP = Ok q /\ qmoments 4 P3 = Ok q'.
Proof.
  assert (Nz : (0, 0, 1)%R <> v0) by (intros E; injection E; lra).
  assert (Ny : (0, 1, 0)%R <> v0) by (intros E; injection E; lra).
  assert (G : ~ origin_before_other exP).
  { intros (l1 & p & l2 & r & l3 & E & Hp & Hr). assert (H : In p exP) by (rewrite E; apply in_or_app; right; now left).
    destruct H as [<-|[<-|[]]]; injection Hp; intros; lra. }
  set (tn := fun n t l => map (fun p => mkpt (pm p) (axis_rot n t (pp p))) l).
  assert (R : forall n t l, n <> v0 -> rotate_point_array (Rows l) t n = Ok (Rows (tn n t l))) by (intros; now rewrite rotate_array_spec).
  exists (tn (0, 0, 1)%R 3%R exP), (tn (0, 1, 0)%R 2%R (tn (0, 0, 1)%R 3%R exP)), (tn (0, 0, 1)%R 1%R (tn (0, 1, 0)%R 2%R (tn (0, 0, 1)%R 3%R exP))).
  destruct (qmoments_good 4 exP ltac:(lia) G) as (q & E & _). exists q.
  destruct (qmoments_good 4 (map (fun p => mkpt (pm p) (euler 1 2 3 (pp p))) exP) ltac:(lia)) as (q' & E' & _).
  { intros H. apply G. eapply origin_before_euler, H. }
  exists q'. split; [now apply R|]. split; [now apply R|].
  split; [now apply R|]. split; [exact E|]. rewrite <- E'. f_equal.
  eapply rpa_euler; apply R; assumption.
Qed.
Print Assumptions C23_rotate_qlm_turns_the_body.

(* ---- C11 (rotated arrays) ---- *)
Theorem C11_rotated_arrays : forall q alpha beta gamma q', (0 <= deg q)%Z -> reality q -> corners0 q ->
  rotate_qlm q alpha beta gamma = Ok q' -> reality q' /\ corners0 q'.
Proof.
  intros q a b g q' HL HR HC E. split; [eapply rotate_reality; eassumption|].
  destruct (rotate_qlm_mom q a b g HL) as (q2 & E2 & Ed & _ & H). rewrite E in E2. injection E2 as <-.
  intros l m Hl Hm. rewrite Ed in *. rewrite H by lia. apply HC; lia.
Qed.

(* ---- C24: the recursion computes the explicit formula ---- *)
Lemma Dl_DD l a b g n m : (Z.abs n <= l)%Z -> (Z.abs m <= l)%Z -> Dl l a b g (l + n)%Z (l + m)%Z = DD a b g l n m.
Proof.
  intros. rewrite Dl_entry by lia. replace (- l + (l + m))%Z with m by ring. replace (- l + (l + n))%Z with n by ring.
  apply Dlmn_DD; assumption.
Qed.
Theorem C24_wignerDl_is_explicit : forall L alpha beta gamma, (1 <= L)%Z ->
  exists ds, wignerDl L alpha beta gamma = Ok ds /\ mlen ds = (L + 1)%Z /\
  forall l i j, (0 <= l <= L)%Z -> (0 <= i <= 2 * l)%Z -> (0 <= j <= 2 * l)%Z ->
    mget ds l i j = Dl l alpha beta gamma i j.
Proof.
  intros L a b g HL. destruct (wignerDl_DD L a b g HL) as (ds & E & Hl & H). exists ds. split; [exact E|]. split; [exact Hl|].
  intros l i j Hl' Hi Hj. replace i with (l + (i - l))%Z by ring. replace j with (l + (j - l))%Z by ring.
  rewrite H, Dl_DD by lia. reflexivity.
Qed.
Theorem C24_dlmn_is_explicit : forall L beta, (1 <= L)%Z ->
  exists ds, dlmn L beta = Ok ds /\ mlen ds = (L + 1)%Z /\
  forall l i j, (0 <= l <= L)%Z -> (0 <= i <= 2 * l)%Z -> (0 <= j <= 2 * l)%Z ->
    mget ds l i j = Dl l 0 beta 0 i j.
Proof.
  intros L b HL. destruct (dlmn_dB L b HL) as (ds & E & Hl & H). exists ds. split; [exact E|]. split; [exact Hl|].
  intros l i j Hl' Hi Hj. replace i with (l + (i - l))%Z by ring. replace j with (l + (j - l))%Z by ring.
  rewrite H, Dl_DD by lia. unfold DD. replace (- (0 * IZR (i - l) + 0 * IZR (j - l)))%R with 0%R by ring. rewrite cexpi_0. ring.
Qed.
Theorem C24_Dl_is_Dlmn : forall l i j alpha beta gamma, (0 <= i <= 2 * l)%Z -> (0 <= j <= 2 * l)%Z ->
  Dl l alpha beta gamma i j = Dlmn l (j - l)%Z (i - l)%Z alpha beta gamma.
Proof. intros. rewrite Dl_entry by lia. f_equal; ring. Qed.
(* a concrete entry: the m = 0, l = 1 element of a rotation by beta about y *)
Example C24_case : forall beta, Dl 1 0 beta 0 1%Z 1%Z = RtoC (cos beta).
Proof.
  intros b. rewrite C24_Dl_is_Dlmn by lia. unfold Dlmn.
  change (Z.min (1 + (1 - 1)) (1 - (1 - 1)) + 1)%Z with 2%Z. change (Z.max (1 - 1 - (1 - 1)) 0) with 0%Z.
  rewrite zsum_first, zsum_first, zsum_empty by lia.
  change (1 - 1)%Z with 0%Z. change (0 - 0)%Z with 0%Z. rewrite !Rmult_0_r, Rplus_0_r, Ropp_0, cexpi_0, sgnC_0.
  replace (zfact (1 - 0)) with 1%R by reflexivity. replace (zfact (1 + 0)) with 1%R by reflexivity.
  replace (1 * 1)%R with 1%R by ring. rewrite sqrt_1. replace (cos b) with (cos (2 * (b / 2))) by (f_equal; field). rewrite cos_2a.
  unfold zfact, sgnR. simpl. apply C_eq; simpl; field.
Qed.
Print Assumptions C24_wignerDl_is_explicit.

(* ---- C25: unitarity and composition ---- *)
Lemma zsum_Dl l (f : Z -> C) : zsum 0 (2 * l + 1) f = zsum (- l) (l + 1) (fun k => f (l + k)%Z).
Proof.
  rewrite (zsum_shift l (- l) (l + 1)). replace (- l + l)%Z with 0%Z by ring. replace (l + 1 + l)%Z with (2 * l + 1)%Z by ring.
  apply zsum_ext. intros k _. f_equal. ring.
Qed.
Theorem C25_unitary : forall l alpha beta gamma i j, (0 <= i <= 2 * l)%Z -> (0 <= j <= 2 * l)%Z ->
  zsum 0 (2 * l + 1) (fun k => Dl l alpha beta gamma i k * Cconj (Dl l alpha beta gamma j k)) = (if (i =? j)%Z then 1 else 0) /\
  zsum 0 (2 * l + 1) (fun k => Cconj (Dl l alpha beta gamma k i) * Dl l alpha beta gamma k j) = (if (i =? j)%Z then 1 else 0).
Proof.
  intros l a b g i j Hi Hj. rewrite !zsum_Dl. set (n := (i - l)%Z). set (m := (j - l)%Z).
  replace i with (l + n)%Z by (unfold n; ring). replace j with (l + m)%Z by (unfold m; ring).
  replace (l + n =? l + m)%Z with (n =? m)%Z by (destruct (Z.eqb_spec n m), (Z.eqb_spec (l + n) (l + m)); lia || reflexivity).
  split.
  - rewrite <- (DD_unitary a b g l n m) by (unfold m; lia). apply zsum_ext. intros k Hk. rewrite !Dl_DD by (unfold n, m; lia). reflexivity.
  - rewrite <- (DD_unitary' a b g l n m) by (unfold m; lia). apply zsum_ext. intros k Hk. rewrite !Dl_DD by (unfold n, m; lia). reflexivity.
Qed.
Theorem C25_identity : forall l i j, (0 <= i <= 2 * l)%Z -> (0 <= j <= 2 * l)%Z ->
  Dl l 0 0 0 i j = if (i =? j)%Z then 1 else 0.
Proof.
  intros l i j Hi Hj. set (n := (i - l)%Z). set (m := (j - l)%Z).
  replace i with (l + n)%Z by (unfold n; ring). replace j with (l + m)%Z by (unfold m; ring).
  replace (l + n =? l + m)%Z with (n =? m)%Z by (destruct (Z.eqb_spec n m), (Z.eqb_spec (l + n) (l + m)); lia || reflexivity).
  rewrite Dl_DD by (unfold n, m; lia). apply DD_id. unfold m; lia.
Qed.
(* matrices multiply when the inner angles cancel; with beta' = 0 or gamma = 0 this contains the composition of
   rotations about one axis *)
Theorem C25_product : forall l a b g b' g' i j, (0 <= i <= 2 * l)%Z -> (0 <= j <= 2 * l)%Z ->
  zsum 0 (2 * l + 1) (fun k => Dl l a b g i k * Dl l (- g) b' g' k j) = Dl l a (b + b') g' i j.
Proof.
  intros l a b g b' g' i j Hi Hj. rewrite !zsum_Dl. set (n := (i - l)%Z). set (m := (j - l)%Z).
  replace i with (l + n)%Z by (unfold n; ring). replace j with (l + m)%Z by (unfold m; ring).
  rewrite (Rplus_comm b b'), Dl_DD by (unfold n, m; lia).
  rewrite <- (DD_comp a b g (- g) b' g' l n m) by (unfold m; lia || ring). apply zsum_ext. intros k Hk.
  rewrite !Dl_DD by (unfold n, m; lia). reflexivity.
Qed.
(* any array, whether or not it has the reality symmetry *)
Theorem C25_rotation_inverse : forall q a b g q1, (0 <= deg q)%Z -> rotate_qlm q a b g = Ok q1 ->
  exists q2, rotate_qlm q1 (- g) (- b) (- a) = Ok q2 /\ same q2 q.
Proof.
  intros q a b g q1 HL E. destruct (rotate_qlm_mom q a b g HL) as (q1' & E' & D1 & A1 & B1). rewrite E in E'. injection E' as <-.
  destruct (rotate_qlm_mom q1 (- g) (- b) (- a)) as (q2 & E2 & D2 & A2 & B2); [lia|]. exists q2. split; [exact E2|].
  split; [congruence|]. intros l m Hl Hm. rewrite D2, D1 in *. destruct (Z_lt_le_dec l (Z.abs m)).
  - now rewrite B2, B1 by lia.
  - rewrite A2 by lia. unfold act.
    rewrite (zsum_ext _ _ _ (fun k => zsum (- l) (l + 1) (fun j => (DD (- g) (- b) (- a) l m k * DD a b g l k j) * mom q l j))).
    + rewrite zsum_swap. rewrite (zsum_ext _ _ _ (fun j => (if (m =? j)%Z then 1 else 0) * mom q l j)).
      * rewrite (zsum_single _ _ m); [rewrite Z.eqb_refl; ring|lia|]. intros k Hk Hn. rewrite (proj2 (Z.eqb_neq m k)) by lia. ring.
      * intros j Hj. rewrite zsum_scal_r. rewrite DD_comp by (lia || ring). f_equal.
        replace (b + - b)%R with 0%R by ring. rewrite DD_z by lia. destruct (Z.eqb_spec m j); [|reflexivity].
        replace (- (IZR m * (- g + g)))%R with 0%R by ring. apply cexpi_0.
    + intros k Hk. rewrite A1 by lia. unfold act. rewrite <- zsum_scal_l. apply zsum_ext. intros. ring.
Qed.
(* rotations about z multiply moment (l,m) by exp(-i m angle), so they add *)
Theorem C25_z_rotation : forall q a g q', (0 <= deg q)%Z -> rotate_qlm q a 0 g = Ok q' ->
  forall l m, (0 <= l <= deg q)%Z -> (Z.abs m <= l)%Z -> mom q' l m = cexpi (- (IZR m * (a + g))) * mom q l m.
Proof.
  intros q a g q' HL E l m Hl Hm. destruct (rotate_qlm_mom q a 0 g HL) as (q1' & E' & D1 & A1 & B1). rewrite E in E'. injection E' as <-.
  rewrite A1 by lia. unfold act. rewrite (zsum_single _ _ m); [rewrite DD_z, Z.eqb_refl by lia; reflexivity|lia|].
  intros k Hk Hn. rewrite DD_z, (proj2 (Z.eqb_neq m k)) by lia. ring.
Qed.
Definition ex_one : marr := mkarr 1 (fun i j => if ((i =? 1) && (j =? 1))%bool%Z then 1 else 0).
Example C25_case : (0 <= deg ex_one)%Z /\ exists q1, rotate_qlm ex_one 1 2 3 = Ok q1 /\ mom q1 1 0 = RtoC (cos 2).
Proof.
  assert (H : (0 <= deg ex_one)%Z) by (cbn; lia). split; [exact H|].
  destruct (rotate_qlm_mom ex_one 1 2 3 H) as (q1 & E & D & A & _). exists q1. split; [exact E|].
  rewrite A by (cbn; lia). unfold act. rewrite (zsum_single _ _ 0); [|lia|].
  - rewrite <- C24_case. rewrite <- (Dl_DD 1 1 2 3 0 0) by lia. rewrite !C24_Dl_is_Dlmn by lia.
    change (mom ex_one 1 0) with (RtoC 1). unfold Dlmn. change (1 + 0 - 1)%Z with 0%Z. change (1 - 1)%Z with 0%Z. rewrite !Rmult_0_r. ring.
  - intros k Hk Hn. unfold mom, ex_one. cbn [deg at_]. rewrite (proj2 (Z.eqb_neq (1 + k) 1)) by lia. rewrite andb_false_r. ring.
Qed.
Print Assumptions C25_unitary.
Print Assumptions C25_rotation_inverse.

(* ---- C26: degree zero ---- *)
Theorem C26_degree_zero_fails : forall alpha beta gamma,
  wignerDl 0 alpha beta gamma = Err TypeError /\ dlmn 0 beta = Err TypeError.
Proof. intros. split; reflexivity. Qed.
(* and only there; rotate_qlm (which asks for one degree more) works at degree 0 too *)
Theorem C26_only_degree_zero : forall L alpha beta gamma, (1 <= L)%Z ->
  (exists ds, wignerDl L alpha beta gamma = Ok ds) /\ (exists ds, dlmn L beta = Ok ds) /\
  forall q, (0 <= deg q)%Z -> exists q', rotate_qlm q alpha beta gamma = Ok q'.
Proof.
  intros L a b g HL. destruct (wignerDl_DD L a b g HL) as (ds & E & _). destruct (dlmn_dB L b HL) as (ds' & E' & _).
  split; [now exists ds|]. split; [now exists ds'|]. intros q Hq. destruct (rotate_qlm_mom q a b g Hq) as (q' & E2 & _). now exists q'.
Qed.

(* ---- C27: rotate_qlm_Ds and rotate_qlm_Ds_right ---- *)
Theorem C27_mismatch_returns_input : forall q ds ct, mlen ds <> (deg q + 1)%Z ->
  rotate_qlm_Ds q ds ct = q /\ rotate_qlm_Ds_right q ds ct = q.
Proof.
  intros q ds ct H. unfold rotate_qlm_Ds, rotate_qlm_Ds_right. rewrite (proj2 (Z.eqb_neq (deg q) (mlen ds - 1))) by lia. now split.
Qed.
Theorem C27_Ds_is_rotate_qlm : forall q alpha beta gamma ds, (1 <= deg q)%Z -> wignerDl (deg q) alpha beta gamma = Ok ds ->
  exists q', rotate_qlm q alpha beta gamma = Ok q' /\ same (rotate_qlm_Ds q ds false) q' /\
    same (rotate_qlm_Ds q' ds true) q.
Proof.
  intros q a b g ds HL E. destruct (wignerDl_DD (deg q) a b g HL) as (ds' & E' & Hl & HD). rewrite E in E'. injection E' as <-.
  destruct (rotate_qlm_mom q a b g ltac:(lia)) as (q' & Eq & D1 & A1 & B1). exists q'. split; [exact Eq|].
  destruct (Ds_mom q ds false (DD a b g) ltac:(lia) Hl HD) as (D2 & A2 & B2).
  destruct (Ds_mom q' ds true (DD a b g)) as (D3 & A3 & B3); [lia|congruence|rewrite D1; exact HD|]. cbv zeta in *. split.
  - split; [congruence|]. rewrite D2. intros l m Hl' Hm. destruct (Z_lt_le_dec l (Z.abs m)).
    + now rewrite B1, B2 by lia.
    + destruct (Z.eq_dec l 0) as [->|].
      * rewrite A1, B2 by lia. replace m with 0%Z by lia. unfold act. rewrite zsum_first, zsum_empty by lia. simpl (- 0)%Z. rewrite DD_0. ring.
      * now rewrite A1, A2 by lia.
  - split; [congruence|]. rewrite D3, D1 in *. intros l m Hl' Hm. destruct (Z_lt_le_dec l (Z.abs m)).
    + now rewrite B3, B1 by lia.
    + destruct (Z.eq_dec l 0) as [->|].
      * rewrite B3, A1 by lia. replace m with 0%Z by lia. unfold act. rewrite zsum_first, zsum_empty by lia. simpl (- 0)%Z. rewrite DD_0. ring.
      * rewrite A3 by lia. unfold act.
        rewrite (zsum_ext _ _ _ (fun k => zsum (- l) (l + 1) (fun j => (Cconj (DD a b g l k m) * DD a b g l k j) * mom q l j))).
        -- rewrite zsum_swap. rewrite (zsum_ext _ _ _ (fun j => (if (m =? j)%Z then 1 else 0) * mom q l j)).
           ++ rewrite (zsum_single _ _ m); [rewrite Z.eqb_refl; ring|lia|]. intros k Hk Hn'. rewrite (proj2 (Z.eqb_neq m k)) by lia. ring.
           ++ intros j Hj. rewrite zsum_scal_r. now rewrite DD_unitary' by lia.
        -- intros k Hk. rewrite A1 by lia. unfold act. rewrite <- zsum_scal_l. apply zsum_ext. intros. ring.
Qed.
(* the right multiplication is the transpose action, for every list of matrices: moving the matrices from
   the sensor to the source leaves the interaction sum unchanged *)
Theorem C27_right_is_transpose : forall q Q ds ct, (0 <= deg q)%Z -> deg Q = deg q -> mlen ds = (deg q + 1)%Z ->
  pairing (deg q) (mom (rotate_qlm_Ds q ds ct)) (mom Q) = pairing (deg q) (mom q) (mom (rotate_qlm_Ds_right Q ds ct)).
Proof.
  intros q Q ds ct HL HQ Hl. set (D := fun l m' m => mget ds l (l + m')%Z (l + m)%Z).
  destruct (Ds_mom q ds ct D HL Hl) as (D2 & A2 & B2); [reflexivity|].
  destruct (Ds_right_mom Q ds ct D) as (D3 & A3 & B3); [lia|lia|reflexivity|]. cbv zeta in *.
  unfold pairing. apply zsum_ext. intros l Hl'. destruct (Z.eq_dec l 0) as [->|].
  - apply zsum_ext. intros m Hm. now rewrite B2, B3 by lia.
  - transitivity (zsum (- l) (l + 1) (fun m => zsum (- l) (l + 1) (fun k => (if ct then Cconj (D l k m) else D l m k) * mom q l k * mom Q l m / RtoC (2 * IZR l + 1)))).
    + apply zsum_ext. intros m Hm. rewrite A2 by lia. unfold act, Cdiv. rewrite <- zsum_scal_r, <- zsum_scal_r. reflexivity.
    + rewrite zsum_swap. apply zsum_ext. intros k Hk. rewrite A3 by lia. unfold act, Cdiv.
      rewrite <- zsum_scal_l, <- zsum_scal_r. apply zsum_ext. intros m Hm. destruct ct; ring.
Qed.
(* hence with Wigner matrices the interaction is invariant when both bodies are turned together *)
Theorem C27_interaction_invariant : forall q Q alpha beta gamma ds, (1 <= deg q)%Z -> deg Q = deg q ->
  wignerDl (deg q) alpha beta gamma = Ok ds ->
  pairing (deg q) (mom (rotate_qlm_Ds q ds false)) (mom (rotate_qlm_Ds_right Q ds true)) = pairing (deg q) (mom q) (mom Q).
Proof.
  intros q Q a b g ds HL HQ E. destruct (wignerDl_DD (deg q) a b g HL) as (ds' & E' & Hl & HD). rewrite E in E'. injection E' as <-.
  destruct (Ds_mom q ds false (DD a b g) ltac:(lia) Hl HD) as (D2 & A2 & B2).
  destruct (Ds_right_mom Q ds true (DD a b g)) as (D3 & A3 & B3); [lia|lia|rewrite HQ; exact HD|]. cbv zeta in *.
  unfold pairing. apply zsum_ext. intros l Hl'. destruct (Z.eq_dec l 0) as [->|].
  - apply zsum_ext. intros m Hm. now rewrite B2, B3 by lia.
  - unfold Cdiv. rewrite !zsum_scal_r. f_equal.
    transitivity (zsum (- l) (l + 1) (fun m => zsum (- l) (l + 1) (fun k => zsum (- l) (l + 1) (fun j => (DD a b g l m k * Cconj (DD a b g l m j)) * (mom q l k * mom Q l j))))).
    + apply zsum_ext. intros m Hm. rewrite A2, A3 by lia. unfold act. rewrite <- zsum_scal_r. apply zsum_ext. intros k Hk.
      rewrite <- zsum_scal_l. apply zsum_ext. intros. ring.
    + rewrite zsum_swap. apply zsum_ext. intros k Hk. rewrite zsum_swap.
      rewrite (zsum_ext _ _ _ (fun j => (if (j =? k)%Z then 1 else 0) * (mom q l k * mom Q l j))).
      * rewrite (zsum_single _ _ k); [rewrite Z.eqb_refl; ring|lia|]. intros j Hj Hn'. rewrite (proj2 (Z.eqb_neq j k)) by lia. ring.
      * intros j Hj. rewrite zsum_scal_r. rewrite <- (DD_unitary' a b g l j k) by lia. f_equal. apply zsum_ext. intros. ring.
Qed.
Example C27_case : exists ds, wignerDl (deg ex_one) 1 2 3 = Ok ds /\ mlen ds = (deg ex_one + 1)%Z /\
  mlen (mkmats 1 (mget ds)) <> (deg ex_one + 1)%Z.
Proof. destruct (wignerDl_DD (deg ex_one) 1 2 3 ltac:(cbn; lia)) as (ds & E & H & _). exists ds. split; [exact E|]. split; [exact H|]. cbn. lia. Qed.
Print Assumptions C27_right_is_transpose.
Print Assumptions C27_interaction_invariant.
