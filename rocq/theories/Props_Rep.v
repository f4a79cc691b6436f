(* C63: the Wigner matrices represent the rotation group. *)
From Coq Require Import Reals Lra Lia ZArith.
From Coquelicot Require Import Coquelicot.
From Verif Require Import Sums Solid MathSpec MomentSpec TransSpec RotSpec Wigner Rotations RotationsProofs RotationsProofs2 Props_Rotations CDeriv MultipoleProofs Irreg Props_Series2 QlmProofs5 TranslationsProofs Addition TransRecProofs MultipoleProofs2 Glib GlibShapesProofs.
From Verif Require Import Cplx.
Open Scope C_scope.

(* ---- the solid harmonics of one degree are linearly independent ---- *)
Lemma classic_zero (z : C) : z = 0 \/ z <> 0.
Proof. destruct (Ceq_dec z 0); [now left|now right]. Qed.
Lemma S_dir l m e v : (forall w, S_ l m w = 0) -> Av e * S_ (l - 1) (m - 1) v + zv e * S_ (l - 1) m v + Bv e * S_ (l - 1) (m + 1) v = 0.
Proof.
  intros H. assert (G : goes (on_line v e) 0 e) by (apply (goes_line _ 0 v e); reflexivity).
  assert (D := cder_S l m _ _ _ G). assert (D0 : cder (fun u => S_ l m (on_line v e u)) 0 0). { apply (cder_ext (fun _ => 0)); [intros; now rewrite H|apply cder_const]. }
  assert (E := cder_unique _ _ _ _ D D0). assert (V : on_line v e 0 = v). { destruct v as [[x y] z], e as [[a b] c]. unfold on_line. apply v3; cbn; ring. }
  rewrite V in E. exact E.
Qed.
Lemma S_nonzero (n : nat) : forall l m, l = Z.of_nat n -> (Z.abs m <= l)%Z -> ~ (forall v, S_ l m v = 0).
Proof.
  induction n as [|n IH]; intros l m Hl Hm H.
  - replace l with 0%Z in H by lia. replace m with 0%Z in H by lia. assert (E := H (0, 0, 0)%R). unfold S_ in E. rewrite solid_00 in E. injection E as E; lra.
  - assert (Z0 : forall v, S_ (l - 1) m v = 0).
    { intros v. assert (E := S_dir l m (0, 0, 1)%R v H). unfold Av, zv, Bv in E. set (p := S_ (l - 1) (m - 1) v) in *. set (q := S_ (l - 1) (m + 1) v) in *. set (k := S_ (l - 1) m v) in *. destruct p as [p1 p2], q as [q1 q2], k as [k1 k2].
      injection E as Ea Eb. cbn in Ea, Eb. apply C_eq; cbn; field_simplify in Ea; field_simplify in Eb; lra. }
    assert (X0 : forall v, S_ (l - 1) (m - 1) v = 0 /\ S_ (l - 1) (m + 1) v = 0).
    { intros v. assert (E := S_dir l m (1, 0, 0)%R v H). assert (E' := S_dir l m (0, 1, 0)%R v H). rewrite Z0 in E, E'. unfold Av, zv, Bv in E, E'.
      set (p := S_ (l - 1) (m - 1) v) in *. set (q := S_ (l - 1) (m + 1) v) in *. destruct p as [p1 p2], q as [q1 q2].
      injection E as Ea Eb. injection E' as Ec Ed. cbn in Ea, Eb, Ec, Ed. split; apply C_eq; cbn; field_simplify in Ea; field_simplify in Eb; field_simplify in Ec; field_simplify in Ed; lra. }
    destruct (Z_le_dec (Z.abs m) (l - 1)) as [h|h]; [exact (IH (l - 1)%Z m ltac:(lia) h Z0)|].
    destruct (Z_le_dec 0 m) as [h'|h']; [apply (IH (l - 1)%Z (m - 1)%Z ltac:(lia) ltac:(lia)); intros v; apply (X0 v)|apply (IH (l - 1)%Z (m + 1)%Z ltac:(lia) ltac:(lia)); intros v; apply (X0 v)].
Qed.
Lemma nsum_zsum n a b (f : nat -> Z -> C) : nsum n (fun i => zsum a b (f i)) = zsum a b (fun k => nsum n (fun i => f i k)).
Proof. unfold zsum. apply nsum_swap. Qed.
Lemma S_independent l (c : Z -> C) : (0 <= l)%Z -> (forall v, zsum (- l) (l + 1) (fun m => c m * S_ l m v) = 0) -> forall m, (Z.abs m <= l)%Z -> c m = 0.
Proof.
  intros Hl H m0 Hm. destruct (classic_zero (c m0)) as [|N]; [assumption|]. exfalso. apply (S_nonzero (Z.to_nat l) l m0); [lia|exact Hm|]. intros v.
  set (M := Z.to_nat (2 * l + 1)). set (t := fun i : nat => (0 + 2 * PI * INR i / INR M)%R).
  assert (E : nsum M (fun i => zsum (- l) (l + 1) (fun m => cexpi (- (IZR (m - m0) * t i)) * (c m * S_ l m v))) = 0).
  { apply nsum_0. intros i _. rewrite (zsum_ext _ _ _ (fun m => cexpi (IZR m0 * t i) * (c m * S_ l m (zrot (t i) v)))).
    - rewrite zsum_scal_l, H. ring.
    - intros m _. rewrite S_zrot. replace (- (IZR (m - m0) * t i))%R with (IZR m0 * t i + - (IZR m * t i))%R by (rewrite minus_IZR; ring). rewrite cexpi_plus. ring. }
  rewrite nsum_zsum in E. rewrite (zsum_single _ _ m0) in E; [|lia|].
  2:{ intros k Hk Hn. rewrite nsum_scal_r. unfold t. rewrite roots_N by (unfold M; lia).
      replace ((k - m0) mod Z.of_nat M =? 0)%Z with false; [ring|]. symmetry. apply Z.eqb_neq. intros Hd. apply Z.mod_divide in Hd; [|unfold M; lia].
      destruct Hd as [d Hd]. unfold M in Hd. rewrite Z2Nat.id in Hd by lia. assert (d = 0 \/ d <= -1 \/ 1 <= d)%Z as [->|[G|G]] by lia; [lia|nia|nia]. }
  rewrite nsum_scal_r in E. unfold t in E. rewrite roots_N in E by (unfold M; lia). rewrite Z.sub_diag in E. rewrite Zmod_0_l in E. cbn [Z.eqb] in E.
  assert (HM : RtoC (INR M) <> 0) by (apply RtoC_neq0, not_0_INR; unfold M; lia).
  replace (- (0 * 0))%R with 0%R in E by ring. rewrite cexpi_0 in E.
  assert (E2 : RtoC (INR M) * c m0 * S_ l m0 v = 0) by (rewrite <- E; ring).
  destruct (classic_zero (S_ l m0 v)) as [|Nv]; [assumption|]. exfalso. revert E2. apply Cmult_neq_0; [now apply Cmult_neq_0|exact Nv].
Qed.
Lemma DD_of_map a b g l n (c : Z -> C) : (0 <= l)%Z -> (Z.abs n <= l)%Z ->
  (forall v, rsolid l n (euler a b g v) = zsum (- l) (l + 1) (fun m => c m * rsolid l m v)) -> forall m, (Z.abs m <= l)%Z -> DD a b g l n m = c m.
Proof.
  intros Hl Hn H m Hm. assert (E : (DD a b g l n m - c m) * RtoC (nrm l m) = 0).
  { apply (S_independent l (fun m => (DD a b g l n m - c m) * RtoC (nrm l m)) Hl); [|exact Hm]. intros v.
    assert (Hv := H v). rewrite rsolid_euler in Hv by assumption. apply (f_equal (fun z => z - zsum (- l) (l + 1) (fun m => c m * rsolid l m v))) in Hv.
    transitivity (RtoC 0); [|reflexivity]. replace (RtoC 0) with (zsum (- l) (l + 1) (fun m => c m * rsolid l m v) - zsum (- l) (l + 1) (fun m => c m * rsolid l m v)) by ring.
    rewrite <- Hv. replace (zsum (- l) (l + 1) (fun m => DD a b g l n m * rsolid l m v) - zsum (- l) (l + 1) (fun m => c m * rsolid l m v)) with (zsum (- l) (l + 1) (fun m => DD a b g l n m * rsolid l m v) + RtoC (-1) * zsum (- l) (l + 1) (fun m => c m * rsolid l m v)) by (rewrite Rm1; ring).
    rewrite <- zsum_scal_l, <- zsum_plus. apply zsum_ext. intros k _. rewrite rsolid_S, Rm1. ring. }
  assert (Hk : RtoC (nrm l m) <> 0) by (apply RtoC_neq0; assert (P := nrm_pos l m Hl); lra).
  destruct (classic_zero (DD a b g l n m - c m)) as [Z0|N]; [|exfalso; revert E; now apply Cmult_neq_0].
  transitivity (DD a b g l n m - c m + c m); [ring|]. rewrite Z0. ring.
Qed.
Lemma DD_rep a b g a' b' g' a'' b'' g'' l n m : (0 <= l)%Z -> (Z.abs n <= l)%Z -> (Z.abs m <= l)%Z -> (forall v, euler a b g (euler a' b' g' v) = euler a'' b'' g'' v) ->
  zsum (- l) (l + 1) (fun k => DD a b g l n k * DD a' b' g' l k m) = DD a'' b'' g'' l n m.
Proof.
  intros Hl Hn Hm H. symmetry. apply (DD_of_map a'' b'' g'' l n (fun m => zsum (- l) (l + 1) (fun k => DD a b g l n k * DD a' b' g' l k m)) Hl Hn); [|exact Hm]. intros v.
  rewrite <- H, rsolid_euler by assumption. rewrite (zsum_ext _ _ _ (fun k => zsum (- l) (l + 1) (fun m => DD a b g l n k * DD a' b' g' l k m * rsolid l m v))).
  - rewrite zsum_swap. apply zsum_ext. intros j _. now rewrite zsum_scal_r.
  - intros k Hk. rewrite rsolid_euler by lia. rewrite <- zsum_scal_l. apply zsum_ext. intros. ring.
Qed.
Lemma DD_same a b g a' b' g' l n m : (0 <= l)%Z -> (Z.abs n <= l)%Z -> (Z.abs m <= l)%Z -> (forall v, euler a b g v = euler a' b' g' v) -> DD a b g l n m = DD a' b' g' l n m.
Proof. intros Hl Hn Hm H. apply DD_of_map; [assumption..| |assumption]. intros v. rewrite H. now apply rsolid_euler. Qed.

(* ---- C63 ---- *)
Theorem C63_same_rotation_same_matrix : forall l a b g a' b' g', (forall v, euler a b g v = euler a' b' g' v) ->
  forall i j, (0 <= i <= 2 * l)%Z -> (0 <= j <= 2 * l)%Z -> Dl l a b g i j = Dl l a' b' g' i j.
Proof.
  intros l a b g a' b' g' H i j Hi Hj. replace i with (l + (i - l))%Z by ring. replace j with (l + (j - l))%Z by ring. rewrite !Dl_DD by lia. now apply DD_same; try lia.
Qed.
Theorem C63_matrices_multiply_like_rotations : forall l a b g a' b' g' a'' b'' g'', (forall v, euler a b g (euler a' b' g' v) = euler a'' b'' g'' v) ->
  forall i j, (0 <= i <= 2 * l)%Z -> (0 <= j <= 2 * l)%Z -> zsum 0 (2 * l + 1) (fun k => Dl l a b g i k * Dl l a' b' g' k j) = Dl l a'' b'' g'' i j.
Proof.
  intros l a b g a' b' g' a'' b'' g'' H i j Hi Hj. rewrite zsum_Dl. replace i with (l + (i - l))%Z by ring. replace j with (l + (j - l))%Z by ring. rewrite Dl_DD by lia.
  rewrite <- (DD_rep a b g a' b' g' a'' b'' g'' l (i - l) (j - l) ltac:(lia) ltac:(lia) ltac:(lia) H). apply zsum_ext. intros k Hk. now rewrite !Dl_DD by lia.
Qed.
(* any array, whether or not it has the reality symmetry *)
Theorem C63_rotating_twice : forall q a b g a' b' g' a'' b'' g'' q1 q2 q3, (0 <= deg q)%Z -> (forall v, euler a b g (euler a' b' g' v) = euler a'' b'' g'' v) ->
  rotate_qlm q a' b' g' = Ok q1 -> rotate_qlm q1 a b g = Ok q2 -> rotate_qlm q a'' b'' g'' = Ok q3 -> same q2 q3.
Proof.
  intros q a b g a' b' g' a'' b'' g'' q1 q2 q3 HL H E1 E2 E3. destruct (rotate_qlm_mom q a' b' g' HL) as (p1 & F1 & D1 & A1 & B1). rewrite E1 in F1. injection F1 as <-.
  destruct (rotate_qlm_mom q1 a b g ltac:(lia)) as (p2 & F2 & D2 & A2 & B2). rewrite E2 in F2. injection F2 as <-. destruct (rotate_qlm_mom q a'' b'' g'' HL) as (p3 & F3 & D3 & A3 & B3). rewrite E3 in F3. injection F3 as <-.
  split; [congruence|]. intros l m Hl Hm. rewrite D2, D1 in *. destruct (Z_lt_le_dec l (Z.abs m)) as [h|h]; [now rewrite B2, B1, B3 by lia|].
  rewrite A2, A3 by lia. unfold act. rewrite (zsum_ext _ _ _ (fun k => zsum (- l) (l + 1) (fun j => DD a b g l m k * DD a' b' g' l k j * mom q l j))).
  - rewrite zsum_swap. apply zsum_ext. intros j Hj. rewrite zsum_scal_r. f_equal. apply DD_rep; (exact H || lia).
  - intros k Hk. rewrite A1 by lia. unfold act. rewrite <- zsum_scal_l. apply zsum_ext. intros. ring.
Qed.
Theorem C63_same_rotation_same_result : forall q a b g a' b' g' q1 q2, (0 <= deg q)%Z -> (forall v, euler a b g v = euler a' b' g' v) ->
  rotate_qlm q a b g = Ok q1 -> rotate_qlm q a' b' g' = Ok q2 -> same q1 q2.
Proof.
  intros q a b g a' b' g' q1 q2 HL H E1 E2. destruct (rotate_qlm_mom q a b g HL) as (p1 & F1 & D1 & A1 & B1). rewrite E1 in F1. injection F1 as <-.
  destruct (rotate_qlm_mom q a' b' g' HL) as (p2 & F2 & D2 & A2 & B2). rewrite E2 in F2. injection F2 as <-.
  split; [congruence|]. intros l m Hl Hm. rewrite D1 in *. destruct (Z_lt_le_dec l (Z.abs m)) as [h|h]; [now rewrite B1, B2 by lia|].
  rewrite A1, A2 by lia. apply zsum_ext. intros k Hk. f_equal. apply DD_same; (exact H || lia).
Qed.
(* ---- every composition of two such rotations is one of them ---- *)
Open Scope R_scope.
Lemma euler_lin a b g c d u v : euler a b g (vadd (vscal c u) (vscal d v)) = vadd (vscal c (euler a b g u)) (vscal d (euler a b g v)).
Proof. destruct u as [[x y] z], v as [[x' y'] z']. unfold euler, zrot, yrot, vadd, vscal. apply v3; ring. Qed.
Lemma cross_zrot a u v : vcross (zrot a u) (zrot a v) = zrot a (vcross u v).
Proof.
  destruct u as [[x y] z], v as [[x' y'] z']. unfold zrot, vcross. assert (E := sin2_cos2 a). unfold Rsqr in E. apply v3; try ring.
  transitivity ((sin a * sin a + cos a * cos a) * (x * y' - y * x')); [ring|rewrite E; ring].
Qed.
Lemma cross_yrot a u v : vcross (yrot a u) (yrot a v) = yrot a (vcross u v).
Proof.
  destruct u as [[x y] z], v as [[x' y'] z']. unfold yrot, vcross. assert (E := sin2_cos2 a). unfold Rsqr in E. apply v3; try ring.
  transitivity ((sin a * sin a + cos a * cos a) * (z * x' - x * z')); [ring|rewrite E; ring].
Qed.
Lemma cross_euler a b g u v : vcross (euler a b g u) (euler a b g v) = euler a b g (vcross u v).
Proof. unfold euler. now rewrite cross_zrot, cross_yrot, cross_zrot. Qed.
Lemma zrot_inv a v : zrot a (zrot (- a) v) = v.
Proof.
  destruct v as [[x y] z]. unfold zrot. rewrite cos_neg, sin_neg. assert (E := sin2_cos2 a). unfold Rsqr in E. apply v3; try ring.
  - transitivity ((sin a * sin a + cos a * cos a) * x); [ring|rewrite E; ring].
  - transitivity ((sin a * sin a + cos a * cos a) * y); [ring|rewrite E; ring].
Qed.
Lemma yrot_inv a v : yrot a (yrot (- a) v) = v.
Proof.
  destruct v as [[x y] z]. unfold yrot. rewrite cos_neg, sin_neg. assert (E := sin2_cos2 a). unfold Rsqr in E. apply v3; try ring.
  - transitivity ((sin a * sin a + cos a * cos a) * x); [ring|rewrite E; ring].
  - transitivity ((sin a * sin a + cos a * cos a) * z); [ring|rewrite E; ring].
Qed.
Lemma euler_inv a b g v : euler a b g (euler (- g) (- b) (- a) v) = v.
Proof. unfold euler. now rewrite zrot_inv, yrot_inv, zrot_inv. Qed.
(* a linear map that preserves lengths, angles and orientation is one of these rotations *)
Definition rotation (f : vec -> vec) : Prop :=
  (forall c d u v, f (vadd (vscal c u) (vscal d v)) = vadd (vscal c (f u)) (vscal d (f v))) /\
  (forall u v, vdot (f u) (f v) = vdot u v) /\ (forall u v, vcross (f u) (f v) = f (vcross u v)).
Lemma rot_comp f h : rotation f -> rotation h -> rotation (fun v => f (h v)).
Proof.
  intros (L1 & D1 & C1) (L2 & D2 & C2). split; [intros; now rewrite L2, L1|]. split; [intros; now rewrite D1, D2|]. intros. now rewrite C1, C2.
Qed.
Lemma rot_euler a b g : rotation (euler a b g).
Proof. split; [intros; apply euler_lin|]. split; [intros; apply vdot_euler|]. intros. apply cross_euler. Qed.
Lemma rot_fix_z f : rotation f -> f (0, 0, 1) = (0, 0, 1) -> exists g, forall v, f v = zrot g v.
Proof.
  intros (HL & HD & HC) Hz. destruct (f (1, 0, 0)) as [[c s] w] eqn:Ex.
  assert (W : w = 0). { assert (E := HD (1, 0, 0) (0, 0, 1)). rewrite Ex, Hz in E. unfold vdot in E. lra. } subst w.
  assert (N : c * c + s * s = 1). { assert (E := HD (1, 0, 0) (1, 0, 0)). rewrite Ex in E. unfold vdot in E. lra. }
  assert (Ey : f (0, 1, 0) = (- s, c, 0)). { assert (E := HC (0, 0, 1) (1, 0, 0)). rewrite Ex, Hz in E. replace (vcross (0, 0, 1) (1, 0, 0)) with (0, 1, 0) in E by (unfold vcross; apply v3; ring). rewrite <- E. unfold vcross. apply v3; ring. }
  destruct (arctan2_polar c s) as (E1 & E2 & _). assert (R1 : GlibShapes.rad c s = 1). { unfold GlibShapes.rad. replace (c ^ 2 + s ^ 2) with 1 by lra. apply sqrt_1. }
  rewrite R1, Rmult_1_l in E1, E2. exists (arctan2 s c). intros [[x y] z].
  assert (V : (x, y, z) = vadd (vscal 1 (vadd (vscal x (1, 0, 0)) (vscal y (0, 1, 0)))) (vscal z (0, 0, 1))) by (unfold vadd, vscal; apply v3; ring).
  rewrite V at 1. rewrite !HL, Ex, Ey, Hz. unfold zrot. rewrite <- E1, <- E2. unfold vadd, vscal. apply v3; ring.
Qed.
Lemma rotation_euler f : rotation f -> exists a b g, forall v, f v = euler a b g v.
Proof.
  intros Hf. assert (HD := proj1 (proj2 Hf)). set (t := f (0, 0, 1)).
  assert (N : vnorm t = 1). { assert (E := HD (0, 0, 1) (0, 0, 1)). fold t in E. destruct t as [[x y] z]. unfold vdot in E. rewrite vnorm_xyz. replace (x ^ 2 + y ^ 2 + z ^ 2) with 1 by lra. apply sqrt_1. }
  assert (A := euler_axis t ltac:(lra)). rewrite N in A.
  set (a := tphi t) in *. set (b := ttheta t) in *. assert (Hr : rotation (fun v => euler (- a) (- b) (- a) (f v))) by (apply rot_comp; [apply rot_euler|exact Hf]).
  destruct (rot_fix_z _ Hr) as (g & Hg).
  - fold t. rewrite <- A. assert (E := euler_inv (- a) (- b) (- a) (0, 0, 1)). rewrite !Ropp_involutive in E. exact E.
  - exists a, b, (a + g). intros v. rewrite <- (euler_inv a b a (f v)), Hg. unfold euler. do 2 f_equal. destruct v as [[x y] z]. unfold zrot. rewrite cos_plus, sin_plus. apply v3; ring.
Qed.
Theorem C63_every_rotation_has_angles : forall f, rotation f <-> exists a b g, forall v, f v = euler a b g v.
Proof.
  intros f. split; [apply rotation_euler|]. intros (a & b & g & H). destruct (rot_euler a b g) as (L1 & D1 & C1). split; [intros; rewrite !H; apply L1|]. split; intros; rewrite !H; [apply D1|apply C1].
Qed.
Theorem C63_compositions_have_angles : forall a b g a' b' g', exists a'' b'' g'', forall v, euler a b g (euler a' b' g' v) = euler a'' b'' g'' v.
Proof. intros. apply (rotation_euler (fun v => euler a b g (euler a' b' g' v))). apply rot_comp; apply rot_euler. Qed.
(* the hypotheses are met by rotations about different axes: half turns about z and y make a half turn about x *)
Example C63_case : forall v, euler PI 0 0 (euler 0 PI 0 v) = euler PI PI 0 v /\ euler 0 PI 0 (euler PI 0 0 v) = euler PI PI 0 v.
Proof.
  intros [[x y] z]. unfold euler, zrot, yrot. rewrite !cos_PI, !sin_PI, !cos_0, !sin_0. split; apply v3; ring.
Qed.
Print Assumptions C63_matrices_multiply_like_rotations.
Print Assumptions C63_rotating_twice.
Print Assumptions C63_every_rotation_has_angles.
