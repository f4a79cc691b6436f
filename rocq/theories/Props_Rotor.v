(* C57: rotors with N-fold symmetry; C58: bodies symmetric about the plane z = 0.
   End to end over the example scripts of /repo/newt/example. *)
From Coq Require Import Permutation.
From Verif Require Import Rotor MomentSpec Solid Pg2Multi Pg2MultiProofs TransSpec TranslationsProofs RotSpec RotationsProofs RotationsProofs2 TransRecProofs.
From Verif Require Import CDeriv MultipoleProofs MultipoleProofs2 Props_Translations Props_Rotations Props_Multipole Props_Torque Addition SolidSpec QlmProofs QlmProofs2 QlmProofs5 Props_Moments Props_Qlm.
From Verif Require Import Cplx.
Open Scope C_scope.

(* ---------- specification ---------- *)
(* a multiple of N *)
Definition divides (N m : Z) : bool := (m mod N =? 0)%Z.
(* a body and its copies turned about z *)
Definition turn_z (a : R) (p : pt) : pt := mkpt (pm p) (zrot a (pp p)).
Definition ring_of (P : list pt) (angles : list R) : list pt := P ++ flat_map (fun a => map (turn_z a) P) angles.
(* reflection in the plane z = 0, and a body that is its own reflection *)
Definition mirror (p : pt) : pt := let '(x, y, z) := pp p in mkpt (pm p) (x, y, - z)%R.
Definition self_mirror (P : list pt) : Prop := Permutation (map mirror P) P.
(* the moments of such a body vanish when l + m is odd *)
Definition flat (q : marr) : Prop := forall l m, (0 <= l <= deg q)%Z -> (Z.abs m <= l)%Z -> Z.odd (l + m) = true -> mom q l m = 0.

(* ---------- assembling ---------- *)
Lemma mom_add a b l m : deg a = deg b -> mom (arr_add a b) l m = mom a l m + mom b l m.
Proof. intros H. unfold mom, arr_add. cbn [deg at_]. now rewrite H. Qed.
Lemma assemble_step q s angles : (0 <= deg q)%Z -> deg s = deg q ->
  exists q', fold_left (fun acc a => do s <- acc; do r <- rotate_qlm q a 0 0; add_in_place s r) angles (Ok s) = Ok q' /\ deg q' = deg q /\
  (forall l m, (0 <= l <= deg q)%Z -> (Z.abs m <= l)%Z ->
     mom q' l m = mom s l m + lsum (fun a => cexpi (- (IZR m * a))) angles * mom q l m) /\
  (corners0 q -> corners0 s -> corners0 q').
Proof.
  intros HL. revert s. induction angles as [|a l IH]; intros s Ds.
  - exists s. split; [reflexivity|]. split; [exact Ds|]. split; [|auto]. intros. cbn [lsum fold_right]. ring.
  - cbn [fold_left bind]. destruct (rotate_qlm_mom q a 0 0 HL) as (r & E & Dr & A & B). rewrite E. cbn [bind]. unfold add_in_place at 2.
    rewrite Ds, Dr, Z.eqb_refl. destruct (IH (arr_add s r) Ds) as (q' & E' & D' & M' & C'). exists q'. split; [exact E'|]. split; [exact D'|]. split.
    + intros i j Hi Hj. rewrite M', mom_add by (assumption || congruence). rewrite (C25_z_rotation q a 0 r HL E i j Hi Hj). rewrite Rplus_0_r.
      cbn [lsum fold_right]. unfold lsum. ring.
    + intros Cq Cs. apply C'; [exact Cq|]. intros i j Hi Hj. cbn [deg arr_add] in *. rewrite mom_add by congruence. rewrite Cs by assumption.
      rewrite B by lia. rewrite Cq by lia. ring.
Qed.
Lemma assemble_ok q angles : (0 <= deg q)%Z ->
  exists q', rotor_of q angles = Ok q' /\ deg q' = deg q /\
  (forall l m, (0 <= l <= deg q)%Z -> (Z.abs m <= l)%Z ->
     mom q' l m = mom q l m + lsum (fun a => cexpi (- (IZR m * a))) angles * mom q l m) /\
  (corners0 q -> corners0 q').
Proof. intros HL. destruct (assemble_step q q angles HL eq_refl) as (q' & E & D & M & Cn). exists q'. split; [exact E|]. split; [exact D|]. split; [exact M|auto]. Qed.

(* the assembled array holds the moments of the body together with its turned copies *)
Lemma inner_turn P a l m : (0 <= l)%Z -> (Z.abs m <= l)%Z -> inner_moment (map (turn_z a) P) l m = cexpi (- (IZR m * a)) * inner_moment P l m.
Proof. intros Hl Hm. exact (inner_turned P a l m Hl Hm). Qed.
Theorem C57_assembly_is_the_union : forall q P angles, (0 <= deg q)%Z -> holds q (inner_moment P) ->
  exists q', rotor_of q angles = Ok q' /\ deg q' = deg q /\ holds q' (inner_moment (ring_of P angles)).
Proof.
  intros q P angles HL [H Hc]. destruct (assemble_ok q angles HL) as (q' & E & D & M & Cn). exists q'. split; [exact E|]. split; [exact D|].
  split; [|auto]. intros l m Hl Hm. rewrite D in Hl. rewrite M, H by assumption. unfold ring_of. unfold inner_moment at 3. rewrite lsum_app. f_equal.
  rewrite <- lsum_scal_r. clear - Hl Hm. induction angles as [|a l0 IH]; [reflexivity|]. cbn [flat_map]. rewrite lsum_app, <- IH.
  change (lsum (fun x => cexpi (- (IZR m * x)) * inner_moment P l m) (a :: l0)) with (cexpi (- (IZR m * a)) * inner_moment P l m + lsum (fun x => cexpi (- (IZR m * x)) * inner_moment P l m) l0).
  f_equal. symmetry. apply inner_turn; lia.
Qed.

(* ---------- C57: N equally spaced copies ---------- *)
Lemma lsum_seq (f : nat -> C) a n : lsum f (seq a n) = nsum n (fun i => f (a + i)%nat).
Proof.
  revert a. induction n as [|n IH]; intros a; [reflexivity|]. rewrite nsum_S_l. cbn [seq]. change (lsum f (a :: seq (S a) n)) with (f a + lsum f (seq (S a) n)).
  rewrite IH, Nat.add_0_r. f_equal. apply nsum_ext. intros i _. f_equal. lia.
Qed.
Lemma steps_sum N m : (0 < N)%nat -> 1 + lsum (fun a => cexpi (- (IZR m * a))) (steps N) = if divides (Z.of_nat N) m then RtoC (INR N) else 0.
Proof.
  intros HN. assert (E := roots_N N m 0 HN). unfold steps. rewrite lsum_map, lsum_seq.
  transitivity (nsum N (fun i => cexpi (- (IZR m * (0 + 2 * PI * INR i / INR N))))).
  - destruct N as [|n]; [lia|]. rewrite nsum_S_l. replace (S n - 1)%nat with n by lia. f_equal.
    + replace (- (IZR m * (0 + 2 * PI * INR 0 / INR (S n))))%R with 0%R by (cbn [INR]; unfold Rdiv; ring). now rewrite cexpi_0.
    + apply nsum_ext. intros i _. do 2 f_equal. f_equal. rewrite Rplus_0_l. reflexivity.
  - rewrite E. unfold divides. replace (- (IZR m * 0))%R with 0%R by ring. rewrite cexpi_0. destruct (_ =? _)%Z; ring.
Qed.
Theorem C57_n_fold_moments : forall (N : nat) q, (1 <= N)%nat -> (0 <= deg q)%Z ->
  exists q', rotor_of q (steps N) = Ok q' /\ deg q' = deg q /\
  forall l m, (0 <= l <= deg q)%Z -> (Z.abs m <= l)%Z -> mom q' l m = if divides (Z.of_nat N) m then RtoC (INR N) * mom q l m else 0.
Proof.
  intros N q HN HL. destruct (assemble_ok q (steps N) HL) as (q' & E & D & M & Cn). exists q'. split; [exact E|]. split; [exact D|].
  intros l m Hl Hm. rewrite M by assumption. transitivity ((1 + lsum (fun a => cexpi (- (IZR m * a))) (steps N)) * mom q l m); [ring|].
  rewrite steps_sum by lia. destruct (divides _ _); ring.
Qed.
(* orders that vanish in one body vanish in the torque, whatever the other body *)
Lemma col_0 (nlm : marr) k : (forall l, (0 <= l <= deg nlm)%Z -> mom nlm l k = 0) -> col nlm k = 0.
Proof. intros H. unfold col. apply zsum_0. intros i Hi. apply H. lia. Qed.
Lemma torque_order_0 q Q c nlm nc ns k : (0 <= deg q)%Z -> deg Q = deg q -> corners0 q -> torque_lm q Q c = Ok (nlm, nc, ns) ->
  (0 <= k <= deg q)%Z -> (forall l, (k <= l <= deg q)%Z -> mom q l k = 0 /\ mom q l (- k) = 0) -> vat nc k = 0 /\ vat ns k = 0.
Proof.
  intros HL DQ Cq E Hk Z0. destruct (C31_torque_moments q Q c HL DQ) as (nlm' & nc' & ns' & E' & D & M & _ & _ & V). rewrite E in E'. injection E' as <- <- <-.
  destruct (V k Hk) as [-> ->].
  assert (G : forall j, (j = k \/ j = - k)%Z -> col nlm j = 0).
  { intros j Hj. apply col_0. intros l Hl. rewrite D in Hl. rewrite M by lia.
    assert (Zq : mom q l j = 0). { destruct (Z_le_dec k l) as [h|h]; [destruct (Z0 l ltac:(lia)) as [G1 G2]; destruct Hj as [-> | ->]; assumption|apply Cq; lia]. }
    rewrite Zq. unfold Cdiv. ring. }
  rewrite (G k), (G (- k)%Z) by auto. split; ring.
Qed.
Lemma divides_opp N m : (0 < N)%Z -> divides N (- m) = divides N m.
Proof.
  intros HN. unfold divides. apply eq_true_iff_eq. rewrite !Z.eqb_eq. split; intros H.
  - rewrite <- (Z.opp_involutive m). apply Z.mod_opp_l_z; lia.
  - apply Z.mod_opp_l_z; lia.
Qed.
Theorem C57_n_fold_torque : forall (N : nat) q q' Q c nlm nc ns k, (1 <= N)%nat -> (0 <= deg q)%Z -> deg Q = deg q -> corners0 q ->
  rotor_of q (steps N) = Ok q' -> torque_lm q' Q c = Ok (nlm, nc, ns) ->
  (0 <= k <= deg q)%Z -> divides (Z.of_nat N) k = false -> vat nc k = 0 /\ vat ns k = 0.
Proof.
  intros N q q' Q c nlm nc ns k HN HL DQ Cq E T Hk Hd. destruct (assemble_ok q (steps N) HL) as (x & E' & D & _ & Cn). rewrite E in E'. injection E' as <-.
  destruct (C57_n_fold_moments N q HN HL) as (x & E' & _ & M). rewrite E in E'. injection E' as <-.
  apply (torque_order_0 q' Q c nlm nc ns k); rewrite ?D; auto. intros l Hl. rewrite !M by lia. rewrite divides_opp, Hd by lia. auto.
Qed.
(* the force depends on the entries |m| <= l of the moments only *)
Lemma mf_sum_ext L q q' Q c sel b : deg q = L -> deg q' = L -> (forall l m, (0 <= l <= L)%Z -> (Z.abs m <= l)%Z -> mom q l m = mom q' l m) ->
  mf_sum L q Q c sel b = mf_sum L q' Q c sel b.
Proof.
  intros D D' H. unfold mf_sum. apply zsum_ext. intros lo Hlo. apply zsum_ext. intros mo Hmo. apply zsum_ext. intros l Hl. apply zsum_ext. intros m Hm.
  destruct (sel mo); [|reflexivity]. unfold mf_fac. specialize (H lo mo ltac:(lia) ltac:(lia)). unfold mom in H. rewrite D, D' in H. now rewrite H.
Qed.
Lemma force_ext L q q' Q x y z c : deg q = L -> deg q' = L -> (forall l m, (0 <= l <= L)%Z -> (Z.abs m <= l)%Z -> mom q l m = mom q' l m) ->
  multipole_force L q Q x y z c = multipole_force L q' Q x y z c.
Proof.
  intros D D' H. destruct (force_basis L x y z) as [[[bX bY] bZ]|e] eqn:Eb.
  - rewrite !(mf_ok _ _ _ _ _ _ _ _ _ _ Eb). now rewrite !(mf_sum_ext L q q').
  - unfold multipole_force. now rewrite Eb.
Qed.
(* turning an N-fold rotor by a multiple of 2 pi / N changes nothing: the script's force is periodic *)
Theorem C57_n_fold_period : forall (N : nat) (j : Z) q q' Q x c, (1 <= N)%nat -> (0 <= deg q)%Z -> rotor_of q (steps N) = Ok q' ->
  script_force (deg q) q' Q (x + 2 * PI * IZR j / INR N) c = script_force (deg q) q' Q x c.
Proof.
  intros N j q q' Q x c HN HL E. destruct (C57_n_fold_moments N q HN HL) as (w & E' & D & M). rewrite E in E'. injection E' as <-.
  unfold script_force. assert (HL' : (0 <= deg q')%Z) by lia.
  destruct (rotate_qlm_mom q' x 0 0 HL') as (r & Er & Dr & _). destruct (rotate_qlm_mom q' (x + 2 * PI * IZR j / INR N) 0 0 HL') as (r2 & Er2 & Dr2 & _).
  rewrite Er, Er2. cbn [bind]. apply force_ext; [congruence|congruence|]. intros l m Hl Hm. rewrite <- D in Hl.
  rewrite (C25_z_rotation q' _ 0 r HL' Er l m Hl Hm), (C25_z_rotation q' _ 0 r2 HL' Er2 l m Hl Hm). rewrite M by lia.
  unfold divides. destruct (Z.eqb_spec (m mod Z.of_nat N) 0) as [h|h]; [|ring]. f_equal.
  apply Z.mod_divide in h; [|lia]. destruct h as [k ->]. 
  assert (HN0 : INR N <> 0%R) by (apply not_0_INR; lia).
  replace (- (IZR (k * Z.of_nat N) * (x + 2 * PI * IZR j / INR N + 0)))%R with (- (IZR (k * Z.of_nat N) * (x + 0)) + 2 * PI * IZR (- (k * j)))%R.
  2:{ rewrite opp_IZR, !mult_IZR, <- INR_IZR_INZ. field. exact HN0. }
  apply cexpi_2PI_Z.
Qed.
(* a body that looks the same from every angle about z gets and gives no torque about z *)
Theorem C57_axisymmetric_no_torque : forall q Q c nlm nc ns, (0 <= deg q)%Z -> deg Q = deg q ->
  (forall l m, (0 <= l <= deg q)%Z -> (Z.abs m <= deg q)%Z -> m <> 0%Z -> mom q l m = 0) -> torque_lm q Q c = Ok (nlm, nc, ns) ->
  forall k, (0 <= k <= deg q)%Z -> vat nc k = 0 /\ vat ns k = 0.
Proof.
  intros q Q c nlm nc ns HL DQ H E k Hk. destruct (Z.eq_dec k 0) as [->|Nk].
  - destruct (C31_torque_moments q Q c HL DQ) as (nlm' & nc' & ns' & E' & D & M & _ & _ & V). rewrite E in E'. injection E' as <- <- <-.
    destruct (V 0%Z Hk) as [-> ->]. change (- 0)%Z with 0%Z.
    assert (G : col nlm 0 = 0). { apply col_0. intros l Hl. rewrite D in Hl. rewrite M by lia. unfold Cdiv. ring. }
    rewrite G. split; ring.
  - apply (torque_order_0 q Q c nlm nc ns k); auto.
    + intros l m Hl Hm. apply H; lia.
    + intros l Hl. split; apply H; lia.
Qed.

(* ---------- the calibrators of the example scripts ---------- *)
Lemma cylinder_real L mass H Rad q : (0 <= L)%Z -> cylinder L mass H Rad = Ok q -> deg q = L /\ reality q /\ corners0 q.
Proof. intros HL E. exact (C11_analytic_moments_reality L mass _ q HL (call_cylinder L mass H Rad) E). Qed.
Lemma cylinder_axial L mass H Rad q : (0 <= L)%Z -> cylinder L mass H Rad = Ok q ->
  forall l m, (0 <= l <= L)%Z -> (Z.abs m <= L)%Z -> (m <> 0 \/ Z.odd l = true)%Z -> mom q l m = 0.
Proof.
  intros HL E l m Hl Hm Hz. destruct (cylinder_same L mass H Rad q HL E) as [_ S5].
  assert (HF := half_fill L (cyl_entry mass H Rad) HL). assert (D : deg (fill 0 (L + 1) L (cyl_entry mass H Rad) (zeros L)) = L) by (apply deg_fill; lia).
  rewrite deg_reflect, D in S5. rewrite <- S5 by lia. rewrite (reflect_mom _ (cyl_entry mass H Rad)) by (rewrite ?D; auto; lia).
  assert (Z0 : forall k, (k <> 0 \/ Z.odd l = true)%Z -> cyl_entry mass H Rad l k = 0).
  { intros k [h|h]; unfold cyl_entry; [rewrite (proj2 (Z.eqb_neq k 0)) by exact h; reflexivity|]. rewrite <- Z.negb_odd, h. cbn [negb]. now rewrite andb_false_r. }
  destruct (Z.eqb_spec m 0) as [->|Nm]; [rewrite Z0 by tauto; reflexivity|]. rewrite !Z0 by (left; lia). rewrite Cconj_RtoC. destruct (_ && _)%bool; [reflexivity|].
  destruct (_ && _)%bool; [ring|reflexivity].
Qed.
(* ---------- C58: the plane z = 0 ---------- *)
Lemma S_mirror l m x y z : S_ l m (x, y, - z)%R = sgnC (l + m) * S_ l m (x, y, z)%R.
Proof.
  destruct (Z_lt_dec l 0) as [h|h]; [rewrite !S_neg by lia; ring|]. unfold S_, solid.
  set (A := - (RtoC x - Ci * RtoC y) / RtoC 2). set (B := (RtoC x + Ci * RtoC y) / RtoC 2).
  transitivity (tri l m ((- 1) * - A) ((- 1) * RtoC z) ((- 1) * - B)).
  - f_equal; [ring|rewrite RtoC_opp; ring|ring].
  - rewrite tri_scal by lia. rewrite tri_opp_AB, sgnC_add. rewrite <- (sgnC_pow (Z.to_nat l)), Z2Nat.id by lia. ring.
Qed.
Lemma S_plane l m x y : Z.odd (l + m) = true -> S_ l m (x, y, 0)%R = 0.
Proof.
  intros H. assert (E := S_mirror l m x y 0). replace (- 0)%R with 0%R in E by ring.
  assert (Es : sgnC (l + m) = - (1)) by (unfold sgnC; rewrite <- Z.negb_odd, H; exact (RtoC_opp 1)). rewrite Es in E.
  set (s := S_ l m (x, y, 0)%R) in *. assert (G : s + s = 0) by (rewrite E at 1; ring).
  transitivity ((s + s) / 2); [field|rewrite G; field]; apply RtoC_neq0; lra.
Qed.
Lemma isolid_plane l m x y : Z.odd (l + m) = true -> isolid l m (x, y, 0)%R = 0.
Proof. intros H. unfold isolid. rewrite rsolid_S, S_plane by exact H. rewrite Cmult_0_r, Cconj_RtoC. unfold Cdiv. ring. Qed.
Lemma mirror_inner p l m : rsolid l m (pp (mirror p)) = sgnC (l + m) * rsolid l m (pp p).
Proof. destruct p as [k [[x y] z]]. unfold mirror. cbn [pp pm]. rewrite !rsolid_S, S_mirror. ring. Qed.
Lemma mirror_norm p : vnorm (pp (mirror p)) = vnorm (pp p).
Proof. destruct p as [k [[x y] z]]. unfold mirror. cbn [pp pm]. unfold vnorm, vdot. f_equal. ring. Qed.
Lemma half_zero (s : C) : s = - s -> s = 0.
Proof. intros E. assert (G : s + s = 0) by (rewrite E at 1; ring). transitivity ((s + s) / 2); [field|rewrite G; field]; apply RtoC_neq0; lra. Qed.
Theorem C58_mirror_moments : forall P l m, self_mirror P -> Z.odd (l + m) = true -> inner_moment P l m = 0 /\ outer_moment P l m = 0.
Proof.
  intros P l m HP Hodd. assert (Es : sgnC (l + m) = - (1)) by (unfold sgnC; rewrite <- Z.negb_odd, Hodd; exact (RtoC_opp 1)).
  assert (Pm : forall p, pm (mirror p) = pm p) by (intros [k [[x y] z]]; reflexivity).
  split; apply half_zero; [unfold inner_moment|unfold outer_moment]; rewrite <- (lsum_perm _ _ _ HP) at 1; rewrite lsum_map.
  - rewrite (lsum_ext _ (fun p => - (1) * (RtoC (pm p) * rsolid l m (pp p)))); [rewrite lsum_scal; ring|]. intros p _. rewrite Pm, mirror_inner, Es. ring.
  - rewrite (lsum_ext _ (fun p => - (1) * (RtoC (pm p) * isolid l m (pp p)))); [rewrite lsum_scal; ring|]. intros p _. rewrite Pm. unfold isolid.
    rewrite mirror_inner, mirror_norm, Es, Cconj_mult, Cconj_opp, Cconj_RtoC. unfold Cdiv. ring.
Qed.
(* no force out of the plane, at any truncation *)
Theorem C58_no_force_out_of_the_plane : forall q Q x y c fx fy fz, (0 <= deg q)%Z -> deg Q = deg q -> flat q -> flat Q ->
  multipole_force (deg q) q Q x y 0 c = Ok (fx, fy, fz) -> fz = 0.
Proof.
  intros q Q x y c fx fy fz HL DQ Fq FQ E.
  assert (H0 : deg q = 0%Z -> (x, y, 0)%R <> v0).
  { intros D0 Ev. rewrite D0 in E. destruct (C29_degree_zero q Q x y 0 c D0 ltac:(lia)) as [F _]. destruct (F Ev) as (_ & F2 & _). congruence. }
  destruct (force_basis_ok (deg q) x y 0 HL H0) as (bX & bY & bZ & Eb & D1 & D2 & D3 & _ & _ & [HZ _]).
  rewrite (mf_ok _ _ _ _ _ _ _ _ _ _ Eb) in E. injection E as _ _ <-.
  unfold mf_sum. apply zsum_0. intros lo Hlo. apply zsum_0. intros mo Hmo. apply zsum_0. intros l Hl. apply zsum_0. intros m Hm.
  replace (deg q + m - mo)%Z with (deg bZ + (m - mo))%Z by lia. fold (mom bZ (l - lo) (m - mo)). rewrite HZ by lia. unfold Sdz.
  destruct (Z.odd (l - lo - 1 + (m - mo))) eqn:O1; [rewrite S_plane by exact O1; ring|].
  unfold mf_fac. destruct (Z.odd (lo + mo)) eqn:O2.
  - fold (mom q lo mo). rewrite Fq by (assumption || lia). unfold Cdiv. ring.
  - rewrite <- DQ. fold (mom Q l m). rewrite FQ; [ring|lia|lia|].
    replace (l + m)%Z with (l - lo - 1 + (m - mo) + (lo + mo) + 1)%Z by ring. rewrite Z.odd_add. rewrite Z.odd_add, O1, O2. reflexivity.
Qed.
Theorem C58_mirror_bodies : forall L P S5 x y c, (1 <= L)%Z -> self_mirror P -> self_mirror S5 -> ~ origin_before_other P ->
  (forall s, In s S5 -> ~ at_origin s) ->
  exists q fx fy, qmoments L P = Ok q /\ multipole_force L q (Qmomentsb L S5) x y 0 c = Ok (fx, fy, RtoC 0).
Proof.
  intros L P S5 x y c HL MP MS OP OS. destruct (qmoments_good L P ltac:(lia) OP) as (q & E & D & Hq).
  destruct (Qmomentsb_good L S5 ltac:(lia) OS) as [DQ HQ].
  destruct (multipole_force_grad q (Qmomentsb L S5) x y 0 c ltac:(lia) ltac:(lia) ltac:(lia)) as (fx & fy & fz & EF & _).
  assert (EF0 := EF). rewrite D in EF0 at 1. exists q, fx, fy. split; [exact E|].
  rewrite EF0. do 2 f_equal. apply (C58_no_force_out_of_the_plane q (Qmomentsb L S5) x y c fx fy fz); try lia; auto.
  - intros l m Hl Hm Ho. rewrite (proj1 Hq) by assumption. now apply C58_mirror_moments.
  - intros l m Hl Hm Ho. rewrite (proj1 HQ) by assumption. now apply C58_mirror_moments.
Qed.
(* the shapes of qlm.py that are upright and centred on the plane *)
Inductive upright : Z -> res marr -> Prop :=
| up_cylinder L mass H Rad : upright L (cylinder L mass H Rad)
| up_annulus L mass H Ri Ro pc ph : upright L (annulus L mass H Ri Ro pc ph)
| up_tri_iso L mass H a d pc : upright L (tri_iso_prism L mass H a d pc)
| up_tri_iso2 L mass H Rad pc ph : upright L (tri_iso_prism2 L mass H Rad pc ph)
| up_tri L mass H d y1 y2 : upright L (tri_prism L mass H d y1 y2)
| up_rect L mass H a b pc : upright L (rect_prism L mass H a b pc)
| up_ngon L mass H a pc N : upright L (ngon_prism L mass H a pc N).
Lemma flat_reflect q f : half q f -> (forall l m, (0 <= m <= l)%Z -> Z.odd (l + m) = true -> f l m = 0) -> flat (Arr.reflect q).
Proof.
  intros HF Z0 l m Hl Hm Ho. rewrite deg_reflect in Hl. rewrite (reflect_mom q f) by (assumption || lia).
  destruct (Z.eqb_spec m 0) as [->|Nm]; [rewrite Z0 by (assumption || lia); reflexivity|].
  destruct ((0 <? m) && (m <=? l))%bool%Z eqn:E1.
  { apply andb_prop in E1. apply Z0; [lia|exact Ho]. }
  destruct ((m <? 0) && (- m <=? l))%bool%Z eqn:E2; [|reflexivity]. apply andb_prop in E2. rewrite Z0; [rewrite Cconj_RtoC; ring|lia|].
  replace (l + - m)%Z with (l + m + 2 * (- m))%Z by ring. now rewrite Z.odd_add_mul_2.
Qed.
Lemma odd_sub l m : Z.odd (l + m) = true -> Z.even (l - m) = false.
Proof. intros H. replace (l - m)%Z with (l + m + 2 * (- m))%Z by ring. rewrite Z.even_add_mul_2, <- Z.negb_odd, H. reflexivity. Qed.
Theorem C58_upright_shapes : forall L r q, (0 <= L)%Z -> upright L r -> r = Ok q -> flat q.
Proof.
  intros L r q HL U E. destruct U.
  - intros l m Hl Hm Ho. assert (D := proj1 (cylinder_real L mass H Rad q HL E)). apply (cylinder_axial L mass H Rad q HL E); [lia|lia|].
    destruct (Z.eq_dec m 0) as [->|]; [right; now rewrite Z.add_0_r in Ho|now left].
  - unfold annulus in E. destruct (_ || _ || _ || _ || _)%bool; [discriminate|]. cbv zeta in E. destruct (is0 _); [discriminate|]. apply Ok_inj in E. subst q.
    eapply flat_reflect; [apply half_mdiv, half_fill; exact HL|]. intros l m Hm Ho. cbv beta. unfold annulus_entry. rewrite odd_sub by exact Ho. unfold Cdiv. ring.
  - unfold tri_iso_prism in E. destruct (_ || _)%bool; [discriminate|]. apply Ok_inj in E. subst q.
    eapply flat_reflect; [apply half_fill; exact HL|]. intros l m Hm Ho. unfold iso_entry. now rewrite odd_sub by exact Ho.
  - unfold tri_iso_prism2 in E. repeat (destruct (_ || _)%bool; [discriminate|]). repeat (destruct (is0 _); [discriminate|]). apply Ok_inj in E. subst q.
    eapply flat_reflect; [apply half_fill; exact HL|]. intros l m Hm Ho. unfold iso_entry. now rewrite odd_sub by exact Ho.
  - unfold tri_prism in E. destruct (_ || _)%bool; [discriminate|]. apply Ok_inj in E. subst q.
    eapply flat_reflect; [apply half_fill; exact HL|]. intros l m Hm Ho. unfold tri_prism_entry. now rewrite odd_sub by exact Ho.
  - unfold rect_prism in E. destruct (_ || _)%bool; [discriminate|]. apply Ok_inj in E. subst q.
    eapply flat_reflect; [apply half_fill; exact HL|]. intros l m Hm Ho. unfold rect_entry.
    rewrite Z.odd_add in Ho. rewrite <- !Z.negb_odd. destruct (Z.odd l), (Z.odd m); try discriminate; reflexivity.
  - unfold ngon_prism in E. destruct (_ || _)%bool; [discriminate|]. destruct (N <=? 2)%Z; [discriminate|]. apply Ok_inj in E. subst q.
    eapply flat_reflect; [apply half_fill; exact HL|]. intros l m Hm Ho. unfold ngon_entry. rewrite odd_sub by exact Ho. now rewrite andb_false_r.
Qed.
(* operations in the plane keep it *)
Theorem C58_in_plane_translation : forall q x y, (0 <= deg q)%Z -> reality q -> corners0 q -> flat q -> flat (translate_qlm q (x, y, 0)%R).
Proof.
  intros q x y HL Hr Hc F l m Hl Hm Ho. destruct (translate_qlm_holds q (x, y, 0)%R HL Hr Hc) as [D _]. rewrite D in Hl.
  assert (E := C17_translated_entries q (x, y, 0)%R l m HL Hr Hc Hl Hm).
  assert (Z0 : mom (translate_qlm q (x, y, 0)%R) l m / RtoC (nrm l m) = 0).
  { rewrite E. apply zsum_0. intros a Ha. apply zsum_0. intros b Hb. destruct (Z.odd (a + b)) eqn:O.
    - rewrite F by (assumption || lia). unfold Cdiv. ring.
    - rewrite S_plane; [ring|]. replace (l - a + (m - b))%Z with (l + m - (a + b))%Z by ring. now rewrite Z.odd_sub, Ho, O. }
  transitivity (mom (translate_qlm q (x, y, 0)%R) l m / RtoC (nrm l m) * RtoC (nrm l m)); [field; apply nrmC_neq0; lia|rewrite Z0; ring].
Qed.
Theorem C58_in_plane_q2Q : forall q x y Q, (0 <= deg q)%Z -> flat q -> translate_q2Q q (x, y, 0)%R = Ok Q -> flat Q.
Proof.
  intros q x y Q HL F E l m Hl Hm Ho.
  assert (Ht : vnorm (x, y, 0)%R <> 0%R). { intros E0. apply vnorm_0_iff in E0. rewrite E0, C22_q2Q_zero_vector_not_finite in E. discriminate. }
  destruct (C21_q2Q_entries q (x, y, 0)%R HL Ht) as (Q' & E' & D & _ & M). rewrite E in E'. injection E' as <-. rewrite D in Hl.
  assert (Z0 : hatQ (mom Q) l m = 0).
  { rewrite M by assumption. apply zsum_0. intros a Ha. apply zsum_0. intros b Hb. destruct (Z.odd (a + b)) eqn:O.
    - rewrite F by (assumption || lia). unfold Cdiv. ring.
    - unfold hatQ at 1. rewrite isolid_plane; [ring|]. replace (l + a + (m + b))%Z with (l + m + (a + b))%Z by ring. now rewrite Z.odd_add, Ho, O. }
  unfold hatQ in Z0. assert (N0 : (nrm l m / (2 * IZR l + 1))%R <> 0%R).
  { apply Rmult_integral_contrapositive_currified; [apply Rgt_not_eq, nrm_pos; lia|]. apply Rinv_neq_0_compat, odd_neq0. lia. }
  apply RtoC_neq0 in N0. transitivity (mom Q l m * RtoC (nrm l m / (2 * IZR l + 1)) / RtoC (nrm l m / (2 * IZR l + 1))); [field; exact N0|rewrite Z0; unfold Cdiv; ring].
Qed.
Lemma flat_z q a q' : (0 <= deg q)%Z -> flat q -> rotate_qlm q a 0 0 = Ok q' -> flat q'.
Proof.
  intros HL F E l m Hl Hm Ho. destruct (rotate_qlm_mom q a 0 0 HL) as (r & E' & D & _). rewrite E in E'. injection E' as <-. rewrite D in Hl.
  rewrite (C25_z_rotation q a 0 q' HL E l m Hl Hm), F by assumption. ring.
Qed.
Theorem C58_rotors : forall q angles q', (0 <= deg q)%Z -> flat q -> rotor_of q angles = Ok q' -> flat q'.
Proof.
  intros q angles q' HL F E. destruct (assemble_ok q angles HL) as (r & E' & D & M & _). rewrite E in E'. injection E' as <-.
  intros l m Hl Hm Ho. rewrite D in Hl. rewrite M, F by assumption. ring.
Qed.
(* an axisymmetric body laid on its side *)
Lemma DD_m0 a b g l m : (0 <= l)%Z -> (Z.abs m <= l)%Z -> rsolid l m (euler a b g (0, 0, 1)%R) = DD a b g l m 0 * rsolid l 0 (0, 0, 1)%R.
Proof.
  intros Hl Hm. rewrite rsolid_euler by assumption. rewrite (zsum_single _ _ 0); [reflexivity|lia|]. intros k Hk Nk.
  rewrite (rsolid_S l k), S_axis by assumption. rewrite (proj2 (Z.eqb_neq k 0)) by assumption. ring.
Qed.
Theorem C58_laid_on_its_side : forall q a g q', (0 <= deg q)%Z -> (forall l m, (0 <= l <= deg q)%Z -> (Z.abs m <= l)%Z -> m <> 0%Z -> mom q l m = 0) ->
  rotate_qlm q a (PI / 2) g = Ok q' -> flat q'.
Proof.
  intros q a g q' HL Hax E l m Hl Hm Ho. destruct (rotate_qlm_mom q a (PI / 2) g HL) as (r & E' & D & A & _). rewrite E in E'. injection E' as <-. rewrite D in Hl.
  rewrite A by assumption. unfold act. rewrite (zsum_single _ _ 0); [|lia|intros k Hk Nk; rewrite Hax by lia; ring].
  assert (G := DD_m0 a (PI / 2) g l m ltac:(lia) Hm). rewrite rsolid_S in G.
  assert (Ez : exists x y, euler a (PI / 2) g (0, 0, 1)%R = (x, y, 0)%R).
  { unfold euler, zrot, yrot. rewrite cos_PI2, sin_PI2. eexists _, _. apply v3; [reflexivity|reflexivity|ring]. }
  destruct Ez as (x & y & Ez). rewrite Ez, S_plane, Cmult_0_r in G by exact Ho.
  rewrite (rsolid_S l 0), S_axis in G by lia. cbn [Z.eqb] in G.
  assert (N0 : RtoC (nrm l 0) * RtoC (1 ^ Z.to_nat l / zfact l) <> 0).
  { apply Cmult_neq_0; [apply nrmC_neq0; lia|]. apply RtoC_neq0. rewrite pow1. apply Rmult_integral_contrapositive_currified; [lra|]. apply Rinv_neq_0_compat, zfact_neq0. }
  replace (DD a (PI / 2) g l m 0) with (RtoC 0); [ring|]. symmetry. apply (Cmul_reg (RtoC (nrm l 0) * RtoC (1 ^ Z.to_nat l / zfact l))); [exact N0|].
  rewrite Cmult_0_r, Cmult_comm, <- G. reflexivity.
Qed.

(* ---------- the example scripts ---------- *)
Lemma add_ok a b : deg a = deg b -> add_in_place a b = Ok (arr_add a b).
Proof. intros H. unfold add_in_place. now rewrite H, Z.eqb_refl. Qed.
Lemma steps_2 : steps 2 = PI :: nil.
Proof. unfold steps. cbn [seq Nat.sub map]. f_equal. cbn [INR]. field. Qed.
Lemma steps_3 : steps 3 = (2 * PI / 3 :: 4 * PI / 3 :: nil)%R.
Proof. unfold steps. cbn [seq Nat.sub map]. f_equal; [|f_equal]; cbn [INR]; field. Qed.
Lemma two_copies q : (0 <= deg q)%Z -> exists r, rotate_qlm q PI 0 0 = Ok r /\ deg r = deg q /\ (corners0 q -> corners0 r) /\ (reality q -> corners0 q -> reality r) /\
  forall l m, (0 <= l <= deg q)%Z -> (Z.abs m <= l)%Z -> mom q l m + mom r l m = if divides 2 m then 2 * mom q l m else 0.
Proof.
  intros HL. destruct (rotate_qlm_mom q PI 0 0 HL) as (r & E & D & A & B). exists r. split; [exact E|]. split; [exact D|]. split; [|split].
  - intros Cq l m Hl Hm. rewrite D in *. rewrite B by lia. apply Cq; lia.
  - intros Rq Cq. exact (proj1 (C11_rotated_arrays q PI 0 0 r HL Rq Cq E)).
  - intros l m Hl Hm. destruct (C57_n_fold_moments 2 q ltac:(lia) HL) as (q' & E' & D' & M'). specialize (M' l m Hl Hm). change (Z.of_nat 2) with 2%Z in M'.
    replace (INR 2) with 2%R in M' by (cbn [INR]; ring). rewrite <- M'.
    rewrite steps_2 in E'. unfold rotor_of in E'. cbn [fold_left bind] in E'. rewrite E in E'. cbn [bind] in E'. rewrite add_ok in E' by congruence. apply Ok_inj in E'. subst q'.
    now rewrite mom_add by congruence.
Qed.
Lemma reality_add a b : deg a = deg b -> reality a -> reality b -> reality (arr_add a b).
Proof.
  intros D Ra Rb l m Hl Hm. cbn [deg arr_add] in *. rewrite !mom_add by exact D. rewrite Ra, Rb, Cconj_plus by (rewrite <- ?D; assumption). ring.
Qed.
Lemma corners_add a b : deg a = deg b -> corners0 a -> corners0 b -> corners0 (arr_add a b).
Proof.
  intros D Ra Rb l m Hl Hm. cbn [deg arr_add] in *. rewrite !mom_add by exact D. rewrite Ra, Rb by (rewrite <- ?D; assumption). ring.
Qed.
Lemma rotor_real q angles q' : (0 <= deg q)%Z -> reality q -> corners0 q -> rotor_of q angles = Ok q' -> reality q'.
Proof.
  intros HL Rq Cq. unfold rotor_of.
  assert (G : forall s, deg s = deg q -> reality s -> fold_left (fun acc a => do s <- acc; do r <- rotate_qlm q a 0 0; add_in_place s r) angles (Ok s) = Ok q' -> reality q').
  { induction angles as [|a l IH]; intros s Ds Rs E; [apply Ok_inj in E; now subst|]. cbn [fold_left bind] in E.
    destruct (rotate_qlm_mom q a 0 0 HL) as (r & Er & Dr & _). rewrite Er in E. cbn [bind] in E. rewrite add_ok in E by congruence.
    apply (IH (arr_add s r)); [exact Ds| |exact E]. apply reality_add; [congruence|exact Rs|]. exact (proj1 (C11_rotated_arrays q a 0 0 r HL Rq Cq Er)). }
  intros E. exact (G q eq_refl Rq E).
Qed.
(* test_ligo.py: three cylinders at radius r3 and two at radius r2 *)
Theorem C57_ligo_rotor : forall LMax mc hc rc r3 r2 cyl, (0 <= LMax)%Z -> cylinder LMax mc hc rc = Ok cyl ->
  exists tot, ligo_rotor LMax mc hc rc r3 r2 = Ok tot /\ deg tot = LMax /\ reality tot /\ corners0 tot /\ flat tot /\
  forall l m, (0 <= l <= LMax)%Z -> (Z.abs m <= l)%Z ->
    mom tot l m = (if divides 3 m then 3 * mom (translate_qlm cyl (r3, 0, 0)%R) l m else 0)
                + (if divides 2 m then 2 * mom (translate_qlm cyl (r2, 0, 0)%R) l m else 0).
Proof.
  intros LMax mc hc rc r3 r2 cyl HL E. destruct (cylinder_real _ _ _ _ _ HL E) as (D & Rc & Cc). assert (HD : (0 <= deg cyl)%Z) by lia.
  assert (Fc := C58_upright_shapes _ _ cyl HL (up_cylinder LMax mc hc rc) E).
  unfold ligo_rotor. rewrite E. cbn [bind]. set (c3 := translate_qlm cyl (r3, 0, 0)%R). set (c2 := translate_qlm cyl (r2, 0, 0)%R).
  destruct (translate_qlm_holds cyl (r3, 0, 0)%R HD Rc Cc) as [D3 _]. destruct (translate_qlm_holds cyl (r2, 0, 0)%R HD Rc Cc) as [D2 _]. fold c3 in D3. fold c2 in D2.
  destruct (proj1 (C11_translated_arrays cyl (r3, 0, 0)%R HD Rc Cc)) as [R3 C3]. destruct (proj1 (C11_translated_arrays cyl (r2, 0, 0)%R HD Rc Cc)) as [R2 C2].
  fold c3 in R3, C3. fold c2 in R2, C2.
  assert (F3 : flat c3) by (apply C58_in_plane_translation; assumption). assert (F2 : flat c2) by (apply C58_in_plane_translation; assumption).
  assert (H3 : (0 <= deg c3)%Z) by lia. assert (H2 : (0 <= deg c2)%Z) by lia. rewrite <- steps_3.
  destruct (C57_n_fold_moments 3 c3 ltac:(lia) H3) as (t1 & E1 & D1 & M1). destruct (assemble_ok c3 (steps 3) H3) as (t1' & E1' & _ & _ & Cn1). rewrite E1 in E1'. injection E1' as <-.
  assert (R1 := rotor_real _ _ _ H3 R3 C3 E1). assert (F1 := C58_rotors _ _ _ H3 F3 E1). specialize (Cn1 C3).
  rewrite E1. cbn [bind]. rewrite add_ok by lia. cbn [bind]. destruct (two_copies c2 H2) as (r & Er & Dr & Cr & Rr & Mr). rewrite Er. cbn [bind].
  specialize (Cr C2). specialize (Rr R2 C2). assert (Fr := flat_z _ _ _ H2 F2 Er).
  assert (Da : deg (arr_add t1 c2) = deg r) by (cbn [deg arr_add]; lia). rewrite add_ok by exact Da.
  eexists. split; [reflexivity|]. split; [cbn [deg arr_add]; lia|]. split; [|split; [|split]].
  - apply reality_add; [exact Da| |exact Rr]. apply reality_add; [lia|exact R1|exact R2].
  - apply corners_add; [exact Da| |exact Cr]. apply corners_add; [lia|exact Cn1|exact C2].
  - intros l m Hl Hm Ho. cbn [deg arr_add] in Hl. rewrite !mom_add by (exact Da || lia). rewrite F1, F2, Fr by (assumption || lia). ring.
  - intros l m Hl Hm. rewrite !mom_add by (exact Da || lia). rewrite <- Cplus_assoc, Mr, M1 by lia. change (Z.of_nat 3) with 3%Z. f_equal.
    replace (INR 3) with 3%R by (cbn [INR]; ring). reflexivity.
Qed.
Theorem C57_ligo_torque : forall LMax mc hc rc r3 r2 tot Q c nlm nc ns k, (0 <= LMax)%Z -> ligo_rotor LMax mc hc rc r3 r2 = Ok tot -> deg Q = LMax ->
  torque_lm tot Q c = Ok (nlm, nc, ns) -> (0 <= k <= LMax)%Z -> divides 2 k = false -> divides 3 k = false -> vat nc k = 0 /\ vat ns k = 0.
Proof.
  intros LMax mc hc rc r3 r2 tot Q c nlm nc ns k HL E DQ T Hk N2 N3.
  assert (Ec : exists cyl, cylinder LMax mc hc rc = Ok cyl). { unfold ligo_rotor in E. destruct (cylinder LMax mc hc rc) as [cyl|]; [eauto|discriminate]. }
  destruct Ec as [cyl Ec]. destruct (C57_ligo_rotor LMax mc hc rc r3 r2 cyl HL Ec) as (t & Et & D & _ & Ct & _ & M). rewrite E in Et. injection Et as <-.
  apply (torque_order_0 tot Q c nlm nc ns k); auto; try lia. intros l Hl. rewrite !M by lia. rewrite !divides_opp, N2, N3 by lia. split; ring.
Qed.
(* test_virgo.py: an arc and its half turn *)
Theorem C57_virgo_rotor : forall LMax mc hc irc orc beta arc, (0 <= LMax)%Z -> annulus LMax (mc / 2) hc irc orc 0 beta = Ok arc ->
  exists tot, virgo_rotor LMax mc hc irc orc beta = Ok tot /\ deg tot = LMax /\ reality tot /\ corners0 tot /\ flat tot /\
  (forall l m, (0 <= l <= LMax)%Z -> (Z.abs m <= l)%Z -> mom tot l m = if divides 2 m then 2 * mom arc l m else 0) /\
  (forall Q x c, script_force LMax tot Q (x + PI) c = script_force LMax tot Q x c).
Proof.
  intros LMax mc hc irc orc beta arc HL E. destruct (C11_analytic_moments_reality LMax _ _ arc HL (call_annulus LMax (mc / 2) hc irc orc 0 beta) E) as (D & Ra & Ca).
  assert (Fa := C58_upright_shapes _ _ arc HL (up_annulus LMax (mc / 2) hc irc orc 0 beta) E). assert (HD : (0 <= deg arc)%Z) by lia.
  unfold virgo_rotor. rewrite E. cbn [bind]. destruct (two_copies arc HD) as (r & Er & Dr & Cr & Rr & Mr). rewrite Er. cbn [bind]. rewrite add_ok by lia.
  assert (Fr := flat_z _ _ _ HD Fa Er).
  assert (Eq : rotor_of arc (steps 2) = Ok (arr_add arc r)).
  { rewrite steps_2. unfold rotor_of. cbn [fold_left bind]. rewrite Er. cbn [bind]. now rewrite add_ok by lia. }
  eexists. split; [reflexivity|]. split; [exact D|]. split; [|split; [|split; [|split]]].
  - apply reality_add; [lia|exact Ra|auto].
  - apply corners_add; [lia|exact Ca|auto].
  - intros l m Hl Hm Ho. cbn [deg arr_add] in Hl. rewrite mom_add by lia. rewrite Fa, Fr by (assumption || lia). ring.
  - intros l m Hl Hm. rewrite mom_add by lia. apply Mr; lia.
  - intros Q x c. rewrite <- D. rewrite <- (C57_n_fold_period 2 1 arc (arr_add arc r) Q x c ltac:(lia) HD Eq). do 2 f_equal. cbn [INR]. field.
Qed.
(* the test mass of both scripts is mirror symmetric, so the scripts' forces are real and in the plane, at every angle *)
Theorem C58_test_mass : forall LMax mtm htm rtm dx dy Q, (0 <= LMax)%Z -> mirror_field LMax mtm htm rtm dx dy = Ok Q ->
  deg Q = LMax /\ reality Q /\ corners0 Q /\ flat Q.
Proof.
  intros LMax mtm htm rtm dx dy Q HL E. unfold mirror_field in E. destruct (cylinder LMax mtm htm rtm) as [cyl|] eqn:Ec; [|discriminate]. cbn [bind] in E.
  destruct (cylinder_real _ _ _ _ _ HL Ec) as (D & Rc & Cc). assert (HD : (0 <= deg cyl)%Z) by lia.
  destruct (rotate_qlm_mom cyl (PI / 2) (PI / 2) (- PI / 2) HD) as (r & Er & Dr & _). rewrite Er in E. cbn [bind] in E.
  destruct (C11_rotated_arrays cyl _ _ _ r HD Rc Cc Er) as [Rr Cr].
  assert (Fr : flat r). { apply (C58_laid_on_its_side cyl (PI / 2) (- PI / 2)); [exact HD| |exact Er]. intros l m Hl Hm Nm. apply (cylinder_axial _ _ _ _ _ HL Ec); [lia|lia|now left]. }
  assert (HR : (0 <= deg r)%Z) by lia.
  assert (Ht : vnorm (dx, dy, 0)%R <> 0%R). { intros E0. apply vnorm_0_iff in E0. rewrite E0, C22_q2Q_zero_vector_not_finite in E. discriminate. }
  destruct (C21_q2Q_entries r (dx, dy, 0)%R HR Ht) as (Q' & E' & DQ & _). rewrite E in E'. injection E' as <-.
  destruct (proj2 (proj2 (C11_translated_arrays r (dx, dy, 0)%R HR Rr Cr)) Q E) as [RQ CQ].
  split; [lia|]. split; [exact RQ|]. split; [exact CQ|]. exact (C58_in_plane_q2Q r dx dy Q HR Fr E).
Qed.
Theorem C58_script_forces : forall LMax tot mtm htm rtm dx dy Q x c, (1 <= LMax)%Z -> deg tot = LMax -> reality tot -> corners0 tot -> flat tot ->
  mirror_field LMax mtm htm rtm dx dy = Ok Q -> exists fx fy : R, script_force LMax tot Q x c = Ok (RtoC fx, RtoC fy, RtoC 0).
Proof.
  intros LMax tot mtm htm rtm dx dy Q x c HL D Rt Ct Ft E. destruct (C58_test_mass LMax mtm htm rtm dx dy Q ltac:(lia) E) as (DQ & RQ & _ & FQ).
  unfold script_force. assert (HD : (0 <= deg tot)%Z) by lia. destruct (rotate_qlm_mom tot x 0 0 HD) as (r & Er & Dr & _). rewrite Er. cbn [bind].
  destruct (C11_rotated_arrays tot _ _ _ r HD Rt Ct Er) as [Rr Cr]. assert (Fr := flat_z _ _ _ HD Ft Er).
  destruct (multipole_force_grad r Q 0 0 0 c ltac:(lia) ltac:(lia) ltac:(lia)) as (fx & fy & fz & EF & _).
  assert (Z0 : fz = 0) by (apply (C58_no_force_out_of_the_plane r Q 0 0 c fx fy fz); auto; lia).
  destruct (C30_force_is_real r Q 0 0 0 c fx fy fz ltac:(lia) ltac:(lia) Rr Cr RQ EF) as (I1 & I2 & _).
  replace (deg r) with LMax in EF by lia. exists (Re fx), (Re fy). rewrite EF, Z0. destruct fx as [a b], fy as [a' b']. cbn [Re Im fst snd] in *. subst. reflexivity.
Qed.
(* non-vacuity: the numbers of test_ligo.py and test_virgo.py are accepted *)
Example C57_case : exists cyl tot, cylinder 10 1 (508 / 10000) (1 / 50) = Ok cyl /\ ligo_rotor 10 1 (508 / 10000) (1 / 50) (1 / 10) (6 / 100) = Ok tot /\
  divides 2 5 = false /\ divides 3 5 = false.
Proof.
  assert (E : exists cyl, cylinder 10 1 (508 / 10000) (1 / 50) = Ok cyl). { unfold cylinder. rewrite (rle_f (508 / 10000) 0), (rle_f (1 / 50) 0) by lra. cbn [orb]. eauto. }
  destruct E as [cyl E]. destruct (C57_ligo_rotor 10 1 (508 / 10000) (1 / 50) (1 / 10) (6 / 100) cyl ltac:(lia) E) as (t & Et & _). exists cyl, t. repeat split; assumption.
Qed.
Example C57_case_fourth_order : exists q q', deg q = 4%Z /\ rotor_of q (steps 4) = Ok q' /\ mom q' 4 4 = RtoC 4 /\ mom q' 4 3 = 0.
Proof.
  set (q := mkarr 4 (fun _ _ => RtoC 1)). destruct (C57_n_fold_moments 4 q ltac:(lia) ltac:(cbn; lia)) as (q' & E & _ & M).
  exists q, q'. split; [reflexivity|]. split; [exact E|]. rewrite !M by (cbn; lia).
  change (divides (Z.of_nat 4) 4) with true. change (divides (Z.of_nat 4) 3) with false. cbv iota. split; [|reflexivity].
  change (mom q 4 4) with (RtoC 1). rewrite Cmult_1_r. f_equal. cbn [INR]. ring.
Qed.
Example C58_case : self_mirror (mkpt 3 (1, 2, 5)%R :: mkpt 3 (1, 2, -5)%R :: mkpt 1 (0, 1, 0)%R :: nil).
Proof.
  unfold self_mirror, mirror. cbn [map pp pm]. replace (- -5)%R with 5%R by lra. replace (- 0)%R with 0%R by lra. replace (- (5))%R with (-5)%R by lra. apply perm_swap.
Qed.
Example C58_case_test_mass : exists Q, mirror_field 10 40 (2 / 10) (17 / 100) 1 1 = Ok Q.
Proof.
  assert (E : exists cyl, cylinder 10 40 (2 / 10) (17 / 100) = Ok cyl). { unfold cylinder. rewrite (rle_f (2 / 10) 0), (rle_f (17 / 100) 0) by lra. cbn [orb]. eauto. }
  destruct E as [cyl E]. unfold mirror_field. rewrite E. cbn [bind]. destruct (cylinder_real 10 40 (2 / 10) (17 / 100) cyl ltac:(lia) E) as (D & _ & _).
  destruct (rotate_qlm_mom cyl (PI / 2) (PI / 2) (- PI / 2) ltac:(lia)) as (r & Er & Dr & _). rewrite Er. cbn [bind].
  assert (Ht : vnorm (1, 1, 0)%R <> 0%R) by (intros E0; apply vnorm_0_iff in E0; injection E0; intros; lra).
  destruct (C21_q2Q_entries r (1, 1, 0)%R ltac:(lia) Ht) as (Q' & E' & _). eauto.
Qed.

Print Assumptions C57_ligo_rotor.
Print Assumptions C57_n_fold_period.
Print Assumptions C58_script_forces.
