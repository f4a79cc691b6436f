(* C71: the measuring loops of the example scripts *)
From Verif Require Import RotorLoop MomentSpec TransSpec RotSpec RotationsProofs RotationsProofs2 MultipoleProofs Props_Rotations Props_Multipole Props_Rotor Props_Rep QlmProofs5 TransRecProofs Addition.
From Verif Require Import Cplx.
Import List. Import ListNotations.
Open Scope C_scope.

(* k turns of space, one after the other *)
Fixpoint turns (a b g : R) (k : nat) (v : vec) : vec := match k with O => v | S k => euler a b g (turns a b g k v) end.

Lemma step_same q a b g ds : (0 <= deg q)%Z -> wignerDl (deg q + 1) a b g = Ok ds ->
  deg (rotate_qlm_Ds q (drop_last ds) false) = deg q /\
  (forall l m, (0 <= l <= deg q)%Z -> (Z.abs m <= l)%Z -> mom (rotate_qlm_Ds q (drop_last ds) false) l m = act (DD a b g) q l m) /\
  (forall l m, (0 <= l <= deg q)%Z -> (l < Z.abs m)%Z -> mom (rotate_qlm_Ds q (drop_last ds) false) l m = mom q l m).
Proof.
  intros HL E. destruct (wignerDl_DD (deg q + 1) a b g ltac:(lia)) as (ds' & E' & Hl & HD). rewrite E in E'. injection E' as <-.
  destruct (Ds_mom q (drop_last ds) false (DD a b g) HL) as (D2 & A2 & B2); [cbn [drop_last mlen]; lia|intros; cbn [drop_last mget]; apply HD; lia|]. cbv zeta in *.
  split; [exact D2|]. split; intros l m Hl' Hm; [|apply B2; lia]. destruct (Z.eq_dec l 0) as [->|]; [|now apply A2; lia].
  rewrite B2 by lia. replace m with 0%Z by lia. unfold act. rewrite zsum_first, zsum_empty by lia. simpl (- 0)%Z. rewrite DD_0. ring.
Qed.
(* one step of the loop is rotate_qlm, for any angles *)
Theorem C71_one_step : forall q a b g ds, (0 <= deg q)%Z -> wignerDl (deg q + 1) a b g = Ok ds ->
  exists q', rotate_qlm q a b g = Ok q' /\ same (rotate_qlm_Ds q (drop_last ds) false) q'.
Proof.
  intros q a b g ds HL E. destruct (step_same q a b g ds HL E) as (D & A & B). destruct (rotate_qlm_mom q a b g HL) as (q' & Eq & D1 & A1 & B1). exists q'. split; [exact Eq|]. split; [congruence|]. rewrite D.
  intros l m Hl Hm. destruct (Z_lt_le_dec l (Z.abs m)); [rewrite B, B1 by lia|rewrite A, A1 by lia]; reflexivity.
Qed.
(* k steps are one rotation by any angles that describe the k turns together *)
Theorem C71_k_steps : forall k q a b g ds a' b' g', (0 <= deg q)%Z -> wignerDl (deg q + 1) a b g = Ok ds -> (forall v, turns a b g k v = euler a' b' g' v) ->
  exists q', rotate_qlm q a' b' g' = Ok q' /\ same (turn_steps ds k q) q'.
Proof.
  induction k as [|k IH]; intros q a b g ds a' b' g' HL E H.
  - destruct (rotate_qlm_mom q a' b' g' HL) as (q' & Eq & D1 & A1 & B1). exists q'. split; [exact Eq|]. split; [now symmetry|]. cbn [turn_steps turns] in *. intros l m Hl Hm. destruct (Z_lt_le_dec l (Z.abs m)); [now rewrite B1 by lia|].
    rewrite A1 by lia. unfold act. rewrite (zsum_single _ _ m); [|lia|].
    + rewrite (DD_same a' b' g' 0 0 0 l m m) by (try lia; intros v; rewrite <- H; destruct v as [[x y] z]; unfold euler, zrot, yrot; rewrite cos_0, sin_0; apply v3; ring). rewrite DD_id, Z.eqb_refl by lia. ring.
    + intros j Hj Hn. rewrite (DD_same a' b' g' 0 0 0 l m j) by (try lia; intros v; rewrite <- H; destruct v as [[x y] z]; unfold euler, zrot, yrot; rewrite cos_0, sin_0; apply v3; ring). rewrite DD_id by lia. rewrite (proj2 (Z.eqb_neq m j)) by lia. ring.
  - cbn [turn_steps]. destruct (step_same q a b g ds HL E) as (D & A & B). set (q1 := rotate_qlm_Ds q (drop_last ds) false) in *.
    (* the first k turns have angles *)
    assert (K : exists a1 b1 g1, forall v, turns a b g k v = euler a1 b1 g1 v).
    { clear. induction k as [|k (a1 & b1 & g1 & IH)]; [exists 0%R, 0%R, 0%R; intros [[x y] z]; unfold turns, euler, zrot, yrot; rewrite cos_0, sin_0; apply v3; ring|].
      destruct (C63_compositions_have_angles a b g a1 b1 g1) as (x & y & z & W). exists x, y, z. intros v. cbn [turns]. now rewrite IH, W. }
    destruct K as (a1 & b1 & g1 & K). rewrite <- D in E. destruct (IH q1 a b g ds a1 b1 g1 ltac:(lia) E K) as (q2 & E2 & S2).
    destruct (rotate_qlm_mom q a b g HL) as (q1' & Eq & D1 & A1 & B1). assert (S1 : same q1 q1').
    { split; [congruence|]. rewrite D. intros l m Hl Hm. destruct (Z_lt_le_dec l (Z.abs m)); [rewrite B, B1 by lia|rewrite A, A1 by lia]; reflexivity. }
    destruct (rotate_qlm_mom q1' a1 b1 g1 ltac:(lia)) as (q2' & Eq2 & D2 & A2 & B2). destruct (rotate_qlm_mom q1 a1 b1 g1 ltac:(lia)) as (q2'' & Eq3 & D3 & A3 & B3). rewrite E2 in Eq3. injection Eq3 as <-.
    destruct (rotate_qlm_mom q a' b' g' HL) as (q3 & E3 & _). exists q3. split; [exact E3|].
    assert (T : forall v, euler a1 b1 g1 (euler a b g v) = euler a' b' g' v).
    { intros v. rewrite <- H, <- K. clear. revert v. induction k as [|k IH]; intros v; [reflexivity|]. cbn [turns] in *. now rewrite IH. }
    assert (S3 := C63_rotating_twice q a1 b1 g1 a b g a' b' g' q1' q2' q3 HL T Eq Eq2 E3).
    assert (S4 : same q2 q2').
    { destruct S1 as (S1d & S1e). split; [lia|]. rewrite D3. intros l m Hl Hm. destruct (Z_lt_le_dec l (Z.abs m)).
      - rewrite B2, B3 by lia. apply S1e; lia.
      - rewrite A2, A3 by lia. unfold act. apply zsum_ext. intros j Hj. f_equal. apply S1e; lia. }
    destruct S2 as (X1 & X2), S3 as (Y1 & Y2), S4 as (Z1 & Z2). split; [congruence|]. intros l m Hl Hm. rewrite X2, Z2, Y2 by lia. reflexivity.
Qed.
Lemma turns_z x k v : turns x 0 0 k v = euler (INR k * x) 0 0 v.
Proof.
  induction k as [|k IH]; [destruct v as [[a b] c]; cbn [turns INR]; rewrite Rmult_0_l; unfold euler, zrot, yrot; rewrite cos_0, sin_0; apply v3; ring|].
  cbn [turns]. rewrite IH, S_INR. replace ((INR k + 1) * x)%R with (x + INR k * x)%R by ring. destruct v as [[a b] c]. unfold euler, zrot, yrot. rewrite cos_0, sin_0, cos_plus, sin_plus. apply v3; ring.
Qed.
(* about the z axis the angles add; a full turn in nAng steps gives back the moments *)
Theorem C71_steps_about_z : forall k q x ds, (0 <= deg q)%Z -> wignerDl (deg q + 1) x 0 0 = Ok ds ->
  exists q', rotate_qlm q (INR k * x) 0 0 = Ok q' /\ same (turn_steps ds k q) q'.
Proof. intros k q x ds HL E. apply (C71_k_steps k q x 0 0 ds _ 0 0 HL E). intros v. apply turns_z. Qed.
Theorem C71_full_turn : forall nAng q ds, (0 < nAng)%nat -> (0 <= deg q)%Z -> wignerDl (deg q + 1) (2 * PI / INR nAng) 0 0 = Ok ds -> same (turn_steps ds nAng q) q.
Proof.
  intros n q ds Hn HL E. assert (HN : INR n <> 0%R) by (apply not_0_INR; lia).
  destruct (C71_k_steps n q _ 0 0 ds 0 0 0 HL E) as (q' & Eq & S1).
  { intros v. rewrite turns_z. replace (INR n * (2 * PI / INR n))%R with (2 * PI)%R by (field; exact HN). destruct v as [[a b] c]. unfold euler, zrot, yrot. rewrite cos_0, sin_0, cos_2PI, sin_2PI. apply v3; ring. }
  destruct (rotate_qlm_mom q 0 0 0 HL) as (q2 & E2 & D & A & B). rewrite Eq in E2. injection E2 as <-. destruct S1 as (X1 & X2). split; [congruence|]. intros l m Hl Hm. rewrite X2 by lia. destruct (Z_lt_le_dec l (Z.abs m)); [now rewrite B by lia|].
  rewrite A by lia. unfold act. rewrite (zsum_single _ _ m); [rewrite DD_id, Z.eqb_refl by lia; ring|lia|]. intros j Hj Hn'. rewrite DD_id by lia. rewrite (proj2 (Z.eqb_neq m j)) by lia. ring.
Qed.
(* the two scripts measure the same forces: row k of test_ligo2.py is row k+1 of test_ligo.py, the last one its first *)
Lemma script_same L q q' tm x c : deg q = L -> deg q' = L -> (0 <= L)%Z -> same q q' -> script_force L q tm x c = script_force L q' tm x c.
Proof.
  intros D D' HL (_ & H). unfold script_force. destruct (rotate_qlm_mom q x 0 0 ltac:(lia)) as (r & E & Dr & A & _). destruct (rotate_qlm_mom q' x 0 0 ltac:(lia)) as (r' & E' & Dr' & A' & _). rewrite E, E'. cbn [bind].
  apply force_ext; [lia|lia|]. intros l m Hl Hm. rewrite A, A' by lia. unfold act. apply zsum_ext. intros k Hk. f_equal. apply H; lia.
Qed.
Lemma loop2_is L ds tm c x n : forall q k q0, deg q0 = L -> (0 <= L)%Z -> wignerDl (L + 1) x 0 0 = Ok ds -> same q (turn_steps ds k q0) -> (exists f, multipole_force L q0 tm 0 0 0 c = Ok f) ->
  exists fs, loop2 L ds tm c n q = Ok fs /\ length fs = n /\ forall j, (j < n)%nat -> exists f, nth_error fs j = Some f /\ script_force L q0 tm (INR (S (k + j)) * x) c = Ok f.
Proof.
  induction n as [|n IH]; intros q k q0 D HL E Sq F.
  - exists []. split; [reflexivity|]. split; [reflexivity|]. intros j Hj. lia.
  - cbn [loop2]. set (q1 := rotate_qlm_Ds q (drop_last ds) false). subst L.
    destruct (C71_steps_about_z k q0 x ds HL E) as (qk & Ek & Sk). destruct (C71_steps_about_z (S k) q0 x ds HL E) as (qk' & Ek' & Sk').
    assert (Dt : forall j, deg (turn_steps ds j q0) = deg q0). { intros j. destruct (C71_steps_about_z j q0 x ds HL E) as (r & Er & (Dr & _)). destruct (rotate_qlm_mom q0 (INR j * x) 0 0 HL) as (r' & Er' & Dr' & _). congruence. }
    assert (Dq : deg q = deg q0) by (destruct Sq; rewrite Dt in *; congruence).
    assert (Snoc : turn_steps ds (S k) q0 = rotate_qlm_Ds (turn_steps ds k q0) (drop_last ds) false).
    { clear. revert q0. induction k as [|k IH]; intros q0; [reflexivity|]. cbn [turn_steps] in *. now rewrite IH. }
    assert (S1 : same q1 (turn_steps ds (S k) q0)).
    { rewrite Snoc. unfold q1. rewrite <- Dq in E. destruct (step_same q x 0 0 ds ltac:(lia) E) as (X1 & X2 & X3). rewrite Dq, <- (Dt k) in E. destruct (step_same (turn_steps ds k q0) x 0 0 ds ltac:(rewrite Dt; lia) E) as (Y1 & Y2 & Y3).
      destruct Sq as (Q1 & Q2). split; [congruence|]. rewrite X1. intros l m Hl Hm. destruct (Z_lt_le_dec l (Z.abs m)); [rewrite X3, Y3 by lia; apply Q2; lia|]. rewrite X2, Y2 by lia. unfold act. apply zsum_ext. intros j Hj. f_equal. apply Q2; lia. }
    assert (D1 : deg q1 = deg q0) by (destruct S1; rewrite Dt in *; congruence).
    assert (FE : multipole_force (deg q0) q1 tm 0 0 0 c = script_force (deg q0) q0 tm (INR (S k) * x) c).
    { unfold script_force. rewrite Ek'. cbn [bind]. destruct S1 as (_ & S1), Sk' as (Dk & Sk'). rewrite Dt in Dk. apply force_ext; [exact D1|congruence|]. intros l m Hl Hm. rewrite S1 by lia. apply Sk'; rewrite ?Dt; lia. }
    assert (FO : exists f, multipole_force (deg q0) q1 tm 0 0 0 c = Ok f).
    { destruct F as (f & F). destruct (force_basis (deg q0) 0 0 0) as [[[bX bY] bZ]|e] eqn:Eb; [|unfold multipole_force in F; rewrite Eb in F; discriminate]. eexists. apply (mf_ok _ _ _ _ _ _ _ _ _ _ Eb). }
    destruct FO as (f & FO). rewrite FO. cbn [bind]. destruct (IH q1 (S k) q0 eq_refl HL E S1 F) as (fs & E2 & Len & N). rewrite E2. cbn [bind]. exists (f :: fs). split; [reflexivity|]. split; [cbn [length]; now rewrite Len|].
    intros [|j] Hj; [exists f; split; [reflexivity|]; rewrite Nat.add_0_r, <- FE; exact FO|]. destruct (N j ltac:(lia)) as (f' & N1 & N2). exists f'. split; [exact N1|]. now replace (k + S j)%nat with (S k + j)%nat by lia.
Qed.
Theorem C71_loop_forces : forall LMax tot tm c nAng, (1 <= LMax)%Z -> deg tot = LMax -> (0 < nAng)%nat ->
  exists fs, ligo2_forces LMax tot tm c nAng = Ok fs /\ length fs = nAng /\
  forall k, (k < nAng)%nat -> exists f, nth_error fs k = Some f /\ script_force LMax tot tm (INR (k + 1) * (2 * PI / INR nAng)) c = Ok f.
Proof.
  intros L tot tm c n HL D Hn. unfold ligo2_forces. destruct (wignerDl_DD (L + 1) (2 * PI / INR n) 0 0 ltac:(lia)) as (ds & E & _). rewrite E. cbn [bind].
  assert (F : exists f, multipole_force L tot tm 0 0 0 c = Ok f). { destruct (force_basis_ok L 0 0 0 ltac:(lia) ltac:(intros; lia)) as (bX & bY & bZ & Eb & _). eexists. apply (mf_ok _ _ _ _ _ _ _ _ _ _ Eb). }
  destruct (loop2_is L ds tm c _ n tot 0 tot D ltac:(lia) E ltac:(split; reflexivity) F) as (fs & E2 & Len & N). exists fs. split; [exact E2|]. split; [exact Len|]. intros k Hk. destruct (N k Hk) as (f & N1 & N2). exists f. split; [exact N1|]. rewrite Nat.add_1_r. exact N2.
Qed.
Lemma ligo_list L tot tm c n x : (exists f, multipole_force L tot tm 0 0 0 c = Ok f) -> deg tot = L -> (0 <= L)%Z -> forall k acc,
  exists fs, fold_left (fun acc k => do fs <- acc; do f <- script_force L tot tm (INR k * x) c; Ok (fs ++ [f])) (seq k n) (Ok acc) = Ok (acc ++ fs) /\ length fs = n /\
  forall j, (j < n)%nat -> exists f, nth_error fs j = Some f /\ script_force L tot tm (INR (k + j) * x) c = Ok f.
Proof.
  intros (f0 & F0) D HL. induction n as [|n IH]; intros k acc.
  - exists []. split; [now rewrite app_nil_r|]. split; [reflexivity|]. intros j Hj. lia.
  - cbn [seq fold_left bind]. assert (FO : exists f, script_force L tot tm (INR k * x) c = Ok f).
    { unfold script_force. destruct (rotate_qlm_mom tot (INR k * x) 0 0 ltac:(lia)) as (r & Er & _). rewrite Er. cbn [bind]. destruct (force_basis L 0 0 0) as [[[bX bY] bZ]|e] eqn:Eb; [|unfold multipole_force in F0; rewrite Eb in F0; discriminate]. eexists. apply (mf_ok _ _ _ _ _ _ _ _ _ _ Eb). }
    destruct FO as (f & FO). rewrite FO. cbn [bind]. destruct (IH (S k) (acc ++ [f])) as (fs & E & Len & N). rewrite E. exists (f :: fs). split; [now rewrite <- app_assoc|]. split; [cbn [length]; now rewrite Len|].
    intros [|j] Hj; [exists f; split; [reflexivity|]; now rewrite Nat.add_0_r|]. destruct (N j ltac:(lia)) as (f' & N1 & N2). exists f'. split; [exact N1|]. now replace (k + S j)%nat with (S k + j)%nat by lia.
Qed.
Theorem C71_two_scripts : forall LMax tot tm c nAng, (1 <= LMax)%Z -> deg tot = LMax -> (0 < nAng)%nat ->
  exists fs fs2, ligo_forces LMax tot tm c nAng = Ok fs /\ ligo2_forces LMax tot tm c nAng = Ok fs2 /\ length fs = nAng /\ length fs2 = nAng /\
  forall k, (k < nAng)%nat -> nth_error fs2 k = nth_error fs ((k + 1) mod nAng).
Proof.
  intros L tot tm c n HL D Hn. assert (HN : INR n <> 0%R) by (apply not_0_INR; lia). assert (F : exists f, multipole_force L tot tm 0 0 0 c = Ok f). { destruct (force_basis_ok L 0 0 0 ltac:(lia) ltac:(intros; lia)) as (bX & bY & bZ & Eb & _). eexists. apply (mf_ok _ _ _ _ _ _ _ _ _ _ Eb). }
  destruct (ligo_list L tot tm c n (2 * PI / INR n) F D ltac:(lia) 0%nat []) as (fs & E & Len & N). destruct (C71_loop_forces L tot tm c n HL D Hn) as (fs2 & E2 & Len2 & N2). exists fs, fs2. split; [exact E|]. split; [exact E2|]. split; [exact Len|]. split; [exact Len2|].
  intros k Hk. destruct (N2 k Hk) as (f & A1 & A2). destruct (N ((k + 1) mod n)%nat ltac:(apply Nat.mod_upper_bound; lia)) as (f' & B1 & B2). rewrite A1, B1. f_equal. rewrite Nat.add_0_l in B2.
  destruct (Nat.eq_dec (k + 1) n) as [W|W]; [|rewrite Nat.mod_small in B2 by lia; congruence]. rewrite W in A2. rewrite W, Nat.mod_same in B2 by lia. 
  assert (P : script_force L tot tm (INR n * (2 * PI / INR n)) c = script_force L tot tm (INR 0 * (2 * PI / INR n)) c); [|congruence].
  unfold script_force. destruct (rotate_qlm_mom tot (INR n * (2 * PI / INR n)) 0 0 ltac:(lia)) as (r & Er & Dr & _). destruct (rotate_qlm_mom tot (INR 0 * (2 * PI / INR n)) 0 0 ltac:(lia)) as (r2 & Er2 & Dr2 & _). rewrite Er, Er2. cbn [bind]. apply force_ext; [lia|lia|].
  intros l m Hl Hm. rewrite (C25_z_rotation tot _ 0 r ltac:(lia) Er l m ltac:(lia) Hm), (C25_z_rotation tot _ 0 r2 ltac:(lia) Er2 l m ltac:(lia) Hm). f_equal. cbn [INR].
  replace (- (IZR m * (INR n * (2 * PI / INR n) + 0)))%R with (- (IZR m * (0 * (2 * PI / INR n) + 0)) + 2 * PI * IZR (- m))%R by (rewrite opp_IZR; field; exact HN). apply cexpi_2PI_Z.
Qed.
(* the force at rotor angle x is a sum of harmonics up to order LMax; multipole_force_m gives their amplitudes *)
Lemma mf_sum_turn L q r Q c x b : deg q = L -> deg r = L -> (forall l m, (0 <= l <= L)%Z -> (Z.abs m <= l)%Z -> mom r l m = cexpi (- (IZR m * x)) * mom q l m) ->
  mf_sum L r Q c (fun _ => true) b = zsum (- L) (L + 1) (fun mo => cexpi (- (IZR mo * x)) * mf_sum L q Q c (fun k => (k =? mo)%Z) b).
Proof.
  intros D D' H. unfold mf_sum. rewrite (zsum_ext (- L) (L + 1) _ (fun mo => zsum 0 (L + 1) (fun lo => zsum (- lo) (lo + 1) (fun k => cexpi (- (IZR mo * x)) * zsum (lo + 1) (L + 1) (fun l => zsum (k - (l - lo)) (k + (l - lo) + 1) (fun m => if (k =? mo)%Z then mf_fac L q Q c lo k l m * at_ b (l - lo) (L + m - k) else 0)))))).
  2: { intros mo Hmo. rewrite <- zsum_scal_l. apply zsum_ext. intros lo Hlo. rewrite <- zsum_scal_l. reflexivity. }
  etransitivity; [|symmetry; apply zsum_swap]. apply zsum_ext. intros lo Hlo. etransitivity; [|symmetry; apply zsum_swap]. apply zsum_ext. intros k Hk. symmetry. rewrite (zsum_single _ _ k); [|lia|].
  - rewrite Z.eqb_refl. symmetry. rewrite <- zsum_scal_l. apply zsum_ext. intros l Hl. rewrite <- zsum_scal_l. apply zsum_ext. intros m Hm. unfold mf_fac. specialize (H lo k ltac:(lia) ltac:(lia)). unfold mom in H. rewrite D, D' in H. rewrite H. unfold Cdiv. ring.
  - intros mo Hmo Hn. rewrite (zsum_0 (lo + 1) (L + 1)); [ring|]. intros l Hl. apply zsum_0. intros m Hm. now rewrite (proj2 (Z.eqb_neq k mo)) by lia.
Qed.
Definition comps (f : C * C * C) (g : (C * C * C -> C) -> C) : Prop := fst (fst f) = g (fun u => fst (fst u)) /\ snd (fst f) = g (fun u => snd (fst u)) /\ snd f = g (fun u => snd u).
Theorem C71_harmonics : forall tot tm c, (1 <= deg tot)%Z -> exists F, multipole_force_m (deg tot) tot tm 0 0 0 c = Ok F /\
  forall x, exists f, script_force (deg tot) tot tm x c = Ok f /\
  comps f (fun part => zsum (- deg tot) (deg tot + 1) (fun m => cexpi (- (IZR m * x)) * part (F (pyidx (2 * deg tot + 1) m)))).
Proof.
  intros tot tm c HL. destruct (force_basis_ok (deg tot) 0 0 0 ltac:(lia) ltac:(intros; lia)) as (bX & bY & bZ & Eb & _). destruct (mfm_ok (deg tot) tot tm 0 0 0 c bX bY bZ Eb) as (F & EF & HF). cbv zeta in HF. exists F. split; [exact EF|]. intros x.
  unfold script_force. destruct (rotate_qlm_mom tot x 0 0 ltac:(lia)) as (r & Er & Dr & _). rewrite Er. cbn [bind]. eexists. split; [apply (mf_ok _ _ _ _ _ _ _ _ _ _ Eb)|].
  assert (T : forall l m, (0 <= l <= deg tot)%Z -> (Z.abs m <= l)%Z -> mom r l m = cexpi (- (IZR m * x)) * mom tot l m). { intros l m Hl Hm. rewrite (C25_z_rotation tot x 0 r ltac:(lia) Er l m Hl Hm). now rewrite Rplus_0_r. }
  assert (P : forall b mo, (- deg tot <= mo < deg tot + 1)%Z -> mf_sum (deg tot) tot tm c (fun k => (k =? mo)%Z) b = mf_sum (deg tot) tot tm c (fun k => (pyidx (2 * deg tot + 1) mo =? pyidx (2 * deg tot + 1) k)%Z) b).
  { intros b mo Hmo. apply mf_sum_sel_ext. intros k Hk. unfold pyidx. destruct (Z.eqb_spec k mo) as [->|N]; [now rewrite Z.eqb_refl|]. symmetry. apply Z.eqb_neq. destruct (Z.ltb_spec k 0), (Z.ltb_spec mo 0); lia. }
  unfold comps. cbn [fst snd]. split; [|split]; rewrite (mf_sum_turn _ tot r tm c x _ eq_refl Dr T); apply zsum_ext; intros mo Hmo; rewrite HF; cbn [fst snd]; now rewrite P by lia.
Qed.
(* sampled at more than 2 LMax equally spaced angles they can be read off exactly: no aliasing *)
Lemma dft_one (n : nat) (L m : Z) (A : Z -> C) : (0 <= L)%Z -> (Z.abs m <= L)%Z -> (2 * L < Z.of_nat n)%Z ->
  nsum n (fun k => cexpi (IZR m * (2 * PI * INR k / INR n)) * zsum (- L) (L + 1) (fun j => cexpi (- (IZR j * (2 * PI * INR k / INR n))) * A j)) = RtoC (INR n) * A m.
Proof.
  intros HL Hm Hn. rewrite (nsum_ext _ _ (fun k => zsum (- L) (L + 1) (fun j => cexpi (- (IZR (j - m) * (0 + 2 * PI * INR k / INR n))) * A j))).
  2: { intros k Hk. rewrite <- zsum_scal_l. apply zsum_ext. intros j Hj. rewrite Cmult_assoc, <- cexpi_plus. f_equal. f_equal. rewrite minus_IZR. ring. }
  rewrite nsum_zsum. rewrite (zsum_single _ _ m); [|lia|].
  - rewrite nsum_scal_r. rewrite (roots_N n (m - m) 0) by lia. rewrite Z.sub_diag, Z.mod_0_l by lia. cbn [Z.eqb]. rewrite Rmult_0_l, Ropp_0, cexpi_0. ring.
  - intros j Hj Hne. rewrite nsum_scal_r, (roots_N n (j - m) 0) by lia. replace ((j - m) mod Z.of_nat n =? 0)%Z with false; [ring|]. symmetry. apply Z.eqb_neq. intros K. apply Z.mod_divide in K; [|lia]. destruct K as [d K].
    destruct (Z.eq_dec d 0) as [->|]; [lia|]. assert (Z.abs (j - m) >= Z.of_nat n)%Z; [|lia]. rewrite K, Z.abs_mul. nia.
Qed.
Theorem C71_no_aliasing : forall tot tm c (nAng : nat) F, (1 <= deg tot)%Z -> (2 * deg tot < Z.of_nat nAng)%Z -> multipole_force_m (deg tot) tot tm 0 0 0 c = Ok F ->
  exists f : nat -> C * C * C, (forall k, script_force (deg tot) tot tm (2 * PI * INR k / INR nAng) c = Ok (f k)) /\
  forall m, (Z.abs m <= deg tot)%Z -> comps (F (pyidx (2 * deg tot + 1) m)) (fun part => nsum nAng (fun k => cexpi (IZR m * (2 * PI * INR k / INR nAng)) * part (f k)) / RtoC (INR nAng)).
Proof.
  intros tot tm c n F HL Hn EF. destruct (C71_harmonics tot tm c HL) as (F' & EF' & H). rewrite EF in EF'. injection EF' as <-.
  set (sf := fun k : nat => match script_force (deg tot) tot tm (2 * PI * INR k / INR n) c with Ok f => f | Err _ => (RtoC 0, RtoC 0, RtoC 0) end).
  assert (W : forall k, script_force (deg tot) tot tm (2 * PI * INR k / INR n) c = Ok (sf k)). { intros k. destruct (H (2 * PI * INR k / INR n)%R) as (f & E & _). unfold sf. now rewrite E. }
  exists sf. split; [exact W|]. intros m Hm. assert (HN : RtoC (INR n) <> 0). { intros K. injection K as K. revert K. apply not_0_INR. lia. }
  assert (Q : forall part : C * C * C -> C, (forall k, part (sf k) = zsum (- deg tot) (deg tot + 1) (fun j => cexpi (- (IZR j * (2 * PI * INR k / INR n))) * part (F (pyidx (2 * deg tot + 1) j)))) ->
     part (F (pyidx (2 * deg tot + 1) m)) = nsum n (fun k => cexpi (IZR m * (2 * PI * INR k / INR n)) * part (sf k)) / RtoC (INR n)).
  { intros part P. rewrite (nsum_ext _ _ (fun k => cexpi (IZR m * (2 * PI * INR k / INR n)) * zsum (- deg tot) (deg tot + 1) (fun j => cexpi (- (IZR j * (2 * PI * INR k / INR n))) * part (F (pyidx (2 * deg tot + 1) j))))) by (intros k _; now rewrite P).
    rewrite (dft_one n (deg tot) m (fun j => part (F (pyidx (2 * deg tot + 1) j)))) by lia. field. exact HN. }
  assert (V : forall k, comps (sf k) (fun part => zsum (- deg tot) (deg tot + 1) (fun j => cexpi (- (IZR j * (2 * PI * INR k / INR n))) * part (F (pyidx (2 * deg tot + 1) j))))).
  { intros k. destruct (H (2 * PI * INR k / INR n)%R) as (f & E & P). rewrite W in E. injection E as <-. exact P. }
  split; [apply (Q (fun u => fst (fst u))); intros k; apply (proj1 (V k))|]. split; [apply (Q (fun u => snd (fst u))); intros k; apply (proj1 (proj2 (V k)))|apply (Q (fun u => snd u)); intros k; apply (proj2 (proj2 (V k)))].
Qed.
(* the scripts: LMax = 10, 120 angles *)
Example C71_case : (1 <= 10)%Z /\ (2 * 10 < Z.of_nat 120)%Z /\ deg (zeros 10) = 10%Z.
Proof. repeat split; lia. Qed.
Print Assumptions C71_no_aliasing.
