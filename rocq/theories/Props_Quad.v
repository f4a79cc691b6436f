(* C82: Gauss-Legendre bricks.  An array of gShapeGL.rectangle with n points along each edge has the moments of its solid through
   degree 2n-1; so the force and the torque of glib on such arrays, moved, turned and joined, differ from those of the solids by at
   most two truncation errors of that degree: geometrically small in n. *)
From Coq Require Import Reals Lra Lia ZArith List.
From Coquelicot Require Import Coquelicot.
From Verif Require Import MultipoleProofs2 TranslationsProofs Sums Props_Multipole TransSpec TransRecProofs NewtonSpec Irreg Props_Series Newton CDeriv MultipoleLib MultipoleProofs RotSpec Rotations Translations Props_Torque Props_Series2 Addition Irreg2 Legendre.
From Verif Require Import LipInt BodyPair BodyLim BodyInt BodyShapes Pg2MultiProofs Props_Body Props_Rate Irreg4 Props_Rate2 Props_Rate3.
From Verif Require Import Glib GlibSpec GlibProofs GlibProofs2 NewtonSpec Newton ShapeSpec BodySpec FloatSpec FlGlib Props_Float FlMoves Props_Float2 Props_Float3 GlibShapes PointSpec Props_GlibShapes RefineSpec Refine6 Props_Refine FineSpec Fine2 Fine5 Props_Fine Props_Newton Budget.
From Verif Require Import FlYukSpec FlYuk Props_Float4.
From Verif Require Import Props_Glib Props_Moments Budget Props_Budget QlmProofs QlmProofs6 GShapeGL GLSpec GLPoints GLProofs Props_GL Props_GL2 Gauss Props_GL3 QuadSpec Quad.
From Verif Require Import Cplx.
Import ListNotations.
Open Scope R_scope.


Lemma brick_sizes gl mass x y z dx dy dz pts r : rules_at gl (dx :: dy :: dz :: nil) -> 0 < x -> 0 < y -> 0 < z -> (0 < dx)%nat -> (0 < dy)%nat -> (0 < dz)%nat ->
  0 <= r -> (x / 2) ^ 2 + (y / 2) ^ 2 + (z / 2) ^ 2 <= r ^ 2 -> gl_rectangle gl mass x y z dx dy dz = Ok pts ->
  lsr (fun p => Rabs (pm p)) pts = Rabs mass /\ forall p, In p pts -> vnorm (pp p) <= r.
Proof.
  intros G Hx Hy Hz Nx Ny Nz Hr Hn E. split.
  - destruct (C41_rectangle_mass gl mass x y z dx dy dz G Nx Ny Nz) as (pts' & E' & _ & T). rewrite E in E'. injection E' as <-.
    rewrite gl_rect_eq in E by assumption. injection E as E.
    assert (P : forall p, In p pts -> exists w, 0 < w /\ pm p = mass / 8 * w).
    { intros p Hp. rewrite <- E in Hp. apply in_gl_grid in Hp. destruct Hp as (sx & sy & sz & Ix & Iy & Iz & ->). cbn [pm]. exists (snd sx * snd sy * snd sz). split; [|reflexivity].
      apply Rmult_lt_0_compat; [apply Rmult_lt_0_compat|]; [apply (gr_in _ _ (G dx ltac:(cbn; tauto)) _ Ix)|apply (gr_in _ _ (G dy ltac:(cbn; tauto)) _ Iy)|apply (gr_in _ _ (G dz ltac:(cbn; tauto)) _ Iz)]. }
    rewrite total_sum in T. assert (S : forall l : list pt, sumR (map pm l) = lsr pm l) by (intros l; induction l as [|p l IH]; [reflexivity|]; cbn [map]; unfold sumR, lsr in *; cbn [fold_right]; now rewrite IH).
    rewrite S in T. clear E S. destruct (Rle_dec 0 mass) as [Hm|Hm].
    + rewrite (Rabs_pos_eq mass Hm), <- T at 1. apply Newton.lsr_ext. intros p Hp. destruct (P p Hp) as (w & Hw & ->). apply Rabs_pos_eq. apply Rmult_le_pos; lra.
    + rewrite (Rabs_left mass) by lra. replace (- mass) with (-1 * mass) by ring. rewrite <- T at 1. rewrite <- Newton.lsr_scal. apply Newton.lsr_ext. intros p Hp. destruct (P p Hp) as (w & Hw & ->).
      rewrite Rabs_left; [ring|]. assert (0 < - (mass / 8) * w) by (apply Rmult_lt_0_compat; lra). lra.
  - intros p Hp. destruct (C41_rectangle_inside gl mass x y z dx dy dz pts p G Hx Hy Hz Nx Ny Nz E Hp) as [B _]. destruct (pp p) as [[a b] c]. unfold brick in B. destruct B as (A1 & A2 & A3).
    rewrite Rminus_0_r in A1, A2, A3. unfold vnorm. rewrite <- (sqrt_pow2 r Hr). apply sqrt_le_1_alt.
    assert (Q : forall u v, Rabs u <= v -> u ^ 2 <= v ^ 2) by (intros u v H; rewrite <- (pow2_abs u); apply pow_incr; split; [apply Rabs_pos|exact H]).
    assert (Q1 := Q _ _ A1). assert (Q2 := Q _ _ A2). assert (Q3 := Q _ _ A3). lra.
Qed.
Lemma ruled_sound gl N pts D r M : ruled gl N pts D r M -> (exists a d, gridded a D r M d) /\ 0 <= r /\ lsr (fun p => Rabs (pm p)) pts = M /\ forall p, In p pts -> vnorm (pp p) <= r.
Proof.
  induction 1 as [mass x y z dx dy dz pts r Hx Hy Hz Dx Dy Dz G Hr Hn E|P r Hr HP|pts D r M t q H IH E|pts D r M axis theta rot q H IH Hax HR E|p1 D1 M1 p2 D2 M2 r H1 IH1 H2 IH2|pts D r M r' Hle H IH].
  - destruct (brick_sizes gl mass x y z dx dy dz pts r G Hx Hy Hz ltac:(lia) ltac:(lia) ltac:(lia) Hr Hn E) as [S I].
    destruct (C40_rectangle_equal_counts mass x y z 1 1 Hx Hy Hz ltac:(lia) ltac:(lia)) as (a & Ea & _).
    split; [|now split]. exists a. eexists. now apply (f_brick mass x y z 1 1 a r); try lia.
  - split; [|now split]. exists P, 0. now apply f_points.
  - destruct IH as ((a & d & Ga) & Hr & S & I). cbn in E. injection E as <-. assert (V := vnorm_ge0 t). split; [|split; [lra|split]].
    + exists (map (fun p => translate_pt p t) a), d. now apply (f_shifted a D r M d t).
    + rewrite <- S, Newton.lsr_map. apply Newton.lsr_ext. intros p _. reflexivity.
    + intros p Hp. apply in_map_iff in Hp. destruct Hp as (p0 & <- & Hp). cbn. assert (T := vnorm_triangle (pp p0) t). specialize (I p0 Hp). lra.
  - destruct IH as ((a & d & Ga) & Hr & S & I). rewrite rotate_array_spec in E by exact Hax. injection E as <-. split; [|split; [exact Hr|split]].
    + eexists _, d. apply (f_rotated a D r M d axis theta rot _ Ga Hax HR). rewrite rotate_array_spec by exact Hax. reflexivity.
    + rewrite <- S, Newton.lsr_map. apply Newton.lsr_ext. intros p _. reflexivity.
    + intros p Hp. apply in_map_iff in Hp. destruct Hp as (p0 & <- & Hp). cbn [pp]. rewrite (rot_vnorm axis theta (axis_rot axis theta) _ (axis_rot_is_rotation axis theta Hax)). now apply I.
  - destruct IH1 as ((a & d & Ga) & Hr & S1 & I1), IH2 as ((b & e & Gb) & _ & S2 & I2). split; [|split; [exact Hr|split]].
    + exists (a ++ b), (d + e). now apply f_together.
    + now rewrite Refine2.lsr_app, S1, S2.
    + intros p Hp. apply in_app_iff in Hp. destruct Hp; auto.
  - destruct IH as ((a & d & Ga) & Hr & S & I). split; [|split; [lra|split; [exact S|]]].
    + exists a, d. now apply (f_larger a D r).
    + intros p Hp. specialize (I p Hp). lra.
Qed.
(* the moments, as an array of degree N *)
Definition points_q (N : nat) (pts : list pt) : marr := mkarr (Z.of_nat N) (fun i j => if (Z.abs (j - Z.of_nat N) <=? i)%Z then inner_moment pts i (j - Z.of_nat N) else 0%C).
Lemma points_q_of N pts : moments_of (points_q N pts) (point_masses pts).
Proof.
  split.
  - intros l m Hl Hm. unfold points_q, mom. cbn [at_ deg] in *. replace (Z.of_nat N + m - Z.of_nat N)%Z with m by ring. rewrite (proj2 (Z.leb_le _ _)) by exact Hm. unfold point_masses, inner_moment. apply lsum_ext. intros p _. now destruct (pp p) as [[a b] c].
  - intros l m Hl Hm. unfold points_q, mom. cbn [at_ deg] in *. replace (Z.of_nat N + m - Z.of_nat N)%Z with m by ring. now rewrite (proj2 (Z.leb_gt _ _)) by lia.
Qed.
Lemma exact_moments N pts D q : exact_to N pts D -> (deg q <= Z.of_nat N)%Z -> moments_of q (point_masses pts) -> moments_of q D.
Proof.
  intros H Hd (A & B). split; [|exact B]. intros l m Hl Hm. destruct (H (fun x y z => rsolid l m (x, y, z))) as (I & I1 & I2).
  - eapply pol3_le; [|now apply pol3_rsolid]. lia.
  - replace (mom q l m) with I; [exact I1|]. rewrite I2. symmetry. exact (A l m Hl Hm).
Qed.
(* what PG2Multi.qmoments computes from the array are the moments of the solid, through degree N *)
Theorem C82_moments : forall gl N pts D r M L, ruled gl N pts D r M -> (0 <= L <= Z.of_nat N)%Z -> ~ origin_before_other pts ->
  exists q, qmoments L pts = Ok q /\ deg q = L /\ moments_of q D.
Proof.
  intros gl N pts D r M L H HL Ho. destruct (C08_qmoments L pts ltac:(lia) Ho) as (q & E & Dq & HH). exists q. split; [exact E|]. split; [exact Dq|].
  apply (exact_moments N pts D q (ruled_exact _ _ _ _ _ _ H)); [lia|]. split; [|exact (proj2 HH)].
  intros l m Hl Hm. rewrite (proj1 HH l m Hl Hm). unfold point_masses, inner_moment. apply lsum_ext. intros p _. now destruct (pp p) as [[a b] c].
Qed.
Print Assumptions C82_moments.

(* ---- force and torque ---- *)
Lemma at_0 v : vadd v (0, 0, 0) = v.
Proof. destruct v as [[a b] c]. unfold vadd. cbn. f_equal; [f_equal|]; ring. Qed.
Lemma co_scal i c F : co i (vscal c F) = c * co i F.
Proof. destruct F as [[a b] d], i; reflexivity. Qed.
Lemma two_sides (fx : C) (a b e : R) : Cmod (fx - RtoC a)%C <= e -> Cmod (fx - RtoC b)%C <= e -> Rabs (a - b) <= 2 * e.
Proof.
  intros A B. rewrite <- Cmod_R. replace (RtoC (a - b)) with ((fx - RtoC b) - (fx - RtoC a))%C by (rewrite RtoC_minus; ring).
  eapply Rle_trans; [apply Cmod_triangle|]. rewrite Cmod_opp. lra.
Qed.
Lemma twist_0 D1 r1 D2 r2 t T : pair_integral D1 r1 D2 r2 (fun v w => twist v (vadd w t)) T -> pair_integral D1 r1 D2 r2 (fun v w => twist (zrot 0 v) (vadd w t)) T.
Proof. intros H. assert (Z : forall v, zrot 0 v = v) by (intros [[a b] c]; unfold zrot; rewrite cos_0, sin_0; apply v3; ring). eapply pair_kernel; [|exact H]. intros v w _ _. cbn beta. now rewrite Z. Qed.
(* any array with the moments of a distribution through degree N *)
Lemma matched_gravity N a D1 r1 M1 d1 b D2 r2 M2 d2 pts qts t : (1 <= N)%nat ->
  gridded a D1 r1 M1 d1 -> gridded b D2 r2 M2 d2 -> gridded pts (point_masses pts) r1 M1 0 -> gridded qts (point_masses qts) r2 M2 0 -> exact_to N pts D1 -> exact_to N qts D2 ->
  0 < r1 -> r1 + r2 < vnorm t ->
  exists F Tz f g, (forall i, pair_integral D1 r1 D2 r2 (fun v w => pull (along i) v (vadd w t)) (co i F)) /\ pair_integral D1 r1 D2 r2 (fun v w => twist v (vadd w t)) Tz /\
    point_matrix_gravity (Rows pts) (translate_point_array (Rows qts) t) = Ok (f, g) /\
    vclose (2 * truncation (Z.of_nat N) M1 M2 (r1 + r2) (vnorm t)) f (vscal BIG_G F) /\
    Rabs (co AZ g - BIG_G * Tz) <= 2 * (r1 * truncation (Z.of_nat N) M1 M2 (r1 + r2) (vnorm t)).
Proof.
  intros HN Ga Gb Gp Gq Ep Eq Hr Ht. set (q := points_q N pts). set (qs := points_q N qts).
  assert (A1 := points_q_of N pts). fold q in A1. assert (A2 := points_q_of N qts). fold qs in A2.
  assert (B1 := exact_moments N pts D1 q Ep (Z.le_refl _) A1). assert (B2 := exact_moments N qts D2 qs Eq (Z.le_refl _) A2).
  assert (Hg : 0 < vnorm t - r1 - r2) by lra. assert (HL : (1 <= deg q)%Z) by (cbn; lia).
  destruct (C78_gravity _ _ _ _ _ _ _ _ _ _ t (vnorm t - r1 - r2) Ga Gb Hr Hg ltac:(lra)) as (F & T & _ & _ & (IF & IT) & _).
  destruct (C78_gravity _ _ _ _ _ _ _ _ _ _ t (vnorm t - r1 - r2) Gp Gq Hr Hg ltac:(lra)) as (F' & T' & f & g & (IF' & IT') & EP & CF & CT).
  exists F, (co AZ T), f, g. split; [exact IF|]. split; [exact (IT AZ)|]. split; [exact EP|].
  assert (E0 : forall i, co i f = BIG_G * co i F') by (intros i; specialize (CF i); rewrite co_scal in CF; replace (BIG_G * (2 / _ ^ 3 * (M1 * 0 + M2 * 0))) with 0 in CF by ring; apply Rabs_le_between in CF; lra).
  assert (E1 : co AZ g = BIG_G * co AZ T') by (specialize (CT AZ); rewrite co_scal in CT; replace (BIG_G * (2 * r1 / _ ^ 3 * (M1 * 0 + M2 * 0) + M2 * 0 / _ ^ 2)) with 0 in CT by (unfold Rdiv; ring); apply Rabs_le_between in CT; lra).
  assert (V0 : vnorm (0, 0, 0) = 0) by (now apply vnorm_0_iff).
  assert (S0 : forall D1 D2 F, (forall i, pair_integral D1 r1 D2 r2 (fun v w => pull (along i) v (vadd w t)) (co i F)) -> forall i, pair_integral D1 r1 D2 r2 (fun v w => pull (along i) (vadd v (0, 0, 0)) (vadd w t)) (co i F)).
  { intros B B' K H i. eapply pair_kernel; [|exact (H i)]. intros v w _ _. cbn beta. now rewrite at_0. }
  assert (J := S0 _ _ _ IF). assert (J' := S0 _ _ _ IF').
  destruct (grid_multipole_force _ _ _ _ _ _ _ _ _ _ t 0 0 0 q qs (co AX F) (co AY F) (co AZ F) Ga Gb ltac:(lra) (J AX) (J AY) (J AZ) HL eq_refl B1 B2) as (Q & fx & fy & fz & EQ & EF & X & Y & Z).
  destruct (grid_multipole_force _ _ _ _ _ _ _ _ _ _ t 0 0 0 q qs (co AX F') (co AY F') (co AZ F') Gp Gq ltac:(lra) (J' AX) (J' AY) (J' AZ) HL eq_refl A1 A2) as (Q' & fx' & fy' & fz' & EQ' & EF' & X' & Y' & Z').
  rewrite EQ in EQ'. injection EQ' as <-. rewrite EF in EF'. injection EF' as <- <- <-. rewrite V0, Rplus_0_r in X, Y, Z, X', Y', Z'. split.
  - intros i. rewrite co_scal, E0. destruct i; [exact (two_sides _ _ _ _ X' X)|exact (two_sides _ _ _ _ Y' Y)|exact (two_sides _ _ _ _ Z' Z)].
  - destruct (grid_multipole_torque _ _ _ _ _ _ _ _ _ _ t 0 q qs (co AZ T) Ga Gb ltac:(lra) (twist_0 _ _ _ _ _ _ (IT AZ)) HL eq_refl B1 B2) as (R & n1 & nc & ns & n & ER & EN & ET & K).
    destruct (grid_multipole_torque _ _ _ _ _ _ _ _ _ _ t 0 q qs (co AZ T') Gp Gq ltac:(lra) (twist_0 _ _ _ _ _ _ (IT' AZ)) HL eq_refl A1 A2) as (R' & n1' & nc' & ns' & n' & ER' & EN' & ET' & K').
    rewrite ER in ER'. injection ER' as <-. rewrite EN in EN'. injection EN' as <- <- <-. rewrite ET in ET'. injection ET' as <-. rewrite E1.
    apply Rabs_le_between in K. apply Rabs_le_between in K'. change (Z.of_nat N) with (deg q). apply Rabs_le_between. lra.
Qed.
Lemma pair_integral_carried2 K D1 r1 D2 r2 k I : (forall v, vnorm v <= r2 -> vnorm (K v) <= r2) ->
  pair_integral D1 r1 (carried K D2) r2 k I -> pair_integral D1 r1 D2 r2 (fun v w => k v (K w)) I.
Proof.
  intros HK (f & g & Hf & Hg & HI). exists (fun v w => f v (K w)), g. split; [|split; [|exact HI]].
  - intros v w Hv Hw. apply Hf; [exact Hv|now apply HK].
  - intros v. assert (H := Hg v). unfold carried in H. set (h := fun x y z => _) in H. replace (fun x y z : R => RtoC (f v (K (x, y, z)))) with h; [exact H|]. unfold h.
    apply FunctionalExtensionality.functional_extensionality; intros x. apply FunctionalExtensionality.functional_extensionality; intros y. apply FunctionalExtensionality.functional_extensionality; intros z. now destruct (K (x, y, z)) as [[a b] c].
Qed.
Lemma rot_sub n th K a b : is_rotation n th K -> K (vsub a b) = vsub (K a) (K b).
Proof.
  intros H. assert (S : forall a b, vsub a b = vadd a (vscal (-1) b)) by (intros [[? ?] ?] [[? ?] ?]; unfold vsub, vadd, vscal; apply v3; ring).
  now rewrite !S, (rot_add _ _ _ H), (rot_scal _ _ _ H).
Qed.
Lemma rot_pull n th K e a b : is_rotation n th K -> pull (K e) (K a) (K b) = pull e a b.
Proof. intros H. unfold pull. rewrite <- (rot_sub n th K b a H), (rot_dot _ _ _ H), (rot_vnorm n th K _ H). reflexivity. Qed.
Lemma ruled_turned gl N pts D r M n th : ruled gl N pts D r M -> n <> v0 -> ruled gl N (Refine3.moved (axis_rot n th) pts) (carried (axis_rot n th) D) r M.
Proof.
  intros H Hn. apply (u_rotated gl N pts D r M n th (axis_rot n th) _ H Hn (axis_rot_is_rotation n th Hn)). rewrite rotate_array_spec by exact Hn. reflexivity.
Qed.
Lemma ruled_gravity gl N pts D1 r1 M1 qts D2 r2 M2 t : (1 <= N)%nat -> ruled gl N pts D1 r1 M1 -> ruled gl N qts D2 r2 M2 -> 0 < r1 -> r1 + r2 < vnorm t ->
  exists F Tz f g, (forall i, pair_integral D1 r1 D2 r2 (fun v w => pull (along i) v (vadd w t)) (co i F)) /\ pair_integral D1 r1 D2 r2 (fun v w => twist v (vadd w t)) Tz /\
    point_matrix_gravity (Rows pts) (translate_point_array (Rows qts) t) = Ok (f, g) /\
    vclose (2 * truncation (Z.of_nat N) M1 M2 (r1 + r2) (vnorm t)) f (vscal BIG_G F) /\
    Rabs (co AZ g - BIG_G * Tz) <= 2 * (r1 * truncation (Z.of_nat N) M1 M2 (r1 + r2) (vnorm t)).
Proof.
  intros HN H1 H2 Hr Ht. destruct (ruled_sound _ _ _ _ _ _ H1) as ((a & d1 & Ga) & R1 & S1 & I1). destruct (ruled_sound _ _ _ _ _ _ H2) as ((b & d2 & Gb) & R2 & S2 & I2).
  apply (matched_gravity N a D1 r1 M1 d1 b D2 r2 M2 d2); try assumption; [rewrite <- S1; now apply f_points|rewrite <- S2; now apply f_points|eapply ruled_exact; exact H1|eapply ruled_exact; exact H2].
Qed.
Lemma upright i : exists n th, n <> v0 /\ axis_rot n th (along i) = (0, 0, 1).
Proof.
  assert (P2 : sin (- (PI / 2)) = -1 /\ cos (- (PI / 2)) = 0) by (rewrite sin_neg, cos_neg, sin_PI2, cos_PI2; lra).
  destruct i.
  - exists (0, 1, 0), (- (PI / 2)). assert (N : (0, 1, 0) <> v0) by (intros E; injection E; lra). split; [exact N|].
    rewrite (rot_angle _ _ _ (axis_rot_is_rotation (0, 1, 0) (- (PI / 2)) N)) by (unfold along, vdot; ring). destruct P2 as [-> ->].
    replace (vnorm (0, 1, 0)) with 1 by (unfold vnorm; replace (0 ^ 2 + 1 ^ 2 + 0 ^ 2) with 1 by ring; symmetry; apply sqrt_1). unfold along, vadd, vscal, vcross. cbn. apply v3; field.
  - exists (1, 0, 0), (PI / 2). assert (N : (1, 0, 0) <> v0) by (intros E; injection E; lra). split; [exact N|].
    rewrite (rot_angle _ _ _ (axis_rot_is_rotation (1, 0, 0) (PI / 2) N)) by (unfold along, vdot; ring). rewrite sin_PI2, cos_PI2.
    replace (vnorm (1, 0, 0)) with 1 by (unfold vnorm; replace (1 ^ 2 + 0 ^ 2 + 0 ^ 2) with 1 by ring; symmetry; apply sqrt_1). unfold along, vadd, vscal, vcross. cbn. apply v3; field.
  - exists (0, 0, 1), 0. assert (N : (0, 0, 1) <> v0) by (intros E; injection E; lra). split; [exact N|]. apply (rot_axis _ _ _ (axis_rot_is_rotation (0, 0, 1) 0 N)).
Qed.
Lemma ruled_torque gl N pts D1 r1 M1 qts D2 r2 M2 t f g : (1 <= N)%nat -> ruled gl N pts D1 r1 M1 -> ruled gl N qts D2 r2 M2 -> 0 < r1 -> r1 + r2 < vnorm t ->
  point_matrix_gravity (Rows pts) (translate_point_array (Rows qts) t) = Ok (f, g) ->
  forall i, exists T, pair_integral D1 r1 D2 r2 (fun v w => pull (vcross (along i) v) v (vadd w t)) T /\ Rabs (co i g - BIG_G * T) <= 2 * (r1 * truncation (Z.of_nat N) M1 M2 (r1 + r2) (vnorm t)).
Proof.
  intros HN H1 H2 Hr Ht EP i. destruct (upright i) as (n & th & Hn & Up). set (K := axis_rot n th) in *. assert (HK : is_rotation n th K) by (apply axis_rot_is_rotation; exact Hn).
  destruct (ruled_gravity gl N _ _ r1 M1 _ _ r2 M2 (K t) HN (ruled_turned gl N pts D1 r1 M1 n th H1 Hn) (ruled_turned gl N qts D2 r2 M2 n th H2 Hn) Hr ltac:(rewrite (rot_vnorm n th K t HK); exact Ht)) as (F & T & f' & g' & _ & IT & EP' & _ & B).
  fold K in IT, EP'. rewrite (rot_vnorm n th K t HK) in B. exists T. split.
  - assert (RD : regular D1) by (destruct (ruled_sound _ _ _ _ _ _ H1) as ((a & d1 & Ga) & _); exact (proj1 (gridded_sound _ _ _ _ _ Ga))).
    apply (pair_integral_carried K D1 r1 r1) in IT; [|exact RD|intros v Hv; now rewrite (rot_vnorm n th K v HK)]. apply (pair_integral_carried2 K) in IT; [|intros v Hv; now rewrite (rot_vnorm n th K v HK)].
    eapply pair_kernel; [|exact IT]. intros v w _ _. cbn beta. unfold twist. rewrite <- Up, <- (rot_cross _ _ _ HK), <- (rot_add _ _ _ HK). apply (rot_pull n th K _ _ _ HK).
  - destruct (C04_rotation_gravity _ _ th n f g Hn EP) as (a' & b' & k & Ea & Eb & Hk & E). assert (EK := is_rotation_unique n th k K Hn Hk HK).
    rewrite rotate_array_spec in Ea by exact Hn. injection Ea as <-. unfold translate_point_array in Eb, EP'. rewrite rotate_array_spec in Eb by exact Hn. injection Eb as <-.
    assert (Q : map (fun p => translate_pt p (K t)) (Refine3.moved K qts) = map (fun p => mkpt (pm p) (K (pp p))) (map (fun p => translate_pt p t) qts)).
    { unfold Refine3.moved. rewrite !map_map. apply map_ext. intros p. unfold translate_pt. cbn [pm pp]. now rewrite (rot_add _ _ _ HK). }
    rewrite Q in EP'. unfold Refine3.moved, K in EP'. rewrite E in EP'. injection EP' as _ <-. replace (co AZ (k g)) with (co i g) in B; [exact B|].
    rewrite EK. assert (C1 : forall j v, co j v = vdot (along j) v) by (intros j [[x y] z]; destruct j; unfold along, vdot; cbn; ring). rewrite !C1. change (along AZ) with (0, 0, 1). rewrite <- Up. symmetry. apply (rot_dot _ _ _ HK).
Qed.
(* the force and the torque between two arrays, the second one moved by t, and those between the solids *)
Theorem C82_gravity : forall gl N pts D1 r1 M1 qts D2 r2 M2 t, (1 <= N)%nat -> ruled gl N pts D1 r1 M1 -> ruled gl N qts D2 r2 M2 -> 0 < r1 -> r1 + r2 < vnorm t ->
  let e := 2 * (BIG_G * M1 * M2 * (((r1 + r2) / vnorm t) ^ N * (INR N + 1 - INR N * ((r1 + r2) / vnorm t)) / (vnorm t - (r1 + r2)) ^ 2)) in
  exists F T f g, interaction pull D1 r1 D2 r2 t F T /\ point_matrix_gravity (Rows pts) (translate_point_array (Rows qts) t) = Ok (f, g) /\
    vclose e f (vscal BIG_G F) /\ vclose (r1 * e) g (vscal BIG_G T).
Proof.
  intros gl N pts D1 r1 M1 qts D2 r2 M2 t HN H1 H2 Hr Ht e. destruct (ruled_gravity gl N pts D1 r1 M1 qts D2 r2 M2 t HN H1 H2 Hr Ht) as (F & Tz & f & g & IF & _ & EP & CF & _).
  assert (Tr := ruled_torque gl N pts D1 r1 M1 qts D2 r2 M2 t f g HN H1 H2 Hr Ht EP).
  assert (Ee : 2 * truncation (Z.of_nat N) M1 M2 (r1 + r2) (vnorm t) = e) by (unfold e, truncation, force_tail; now rewrite Nat2Z.id).
  destruct (Tr AX) as (Tx & Ix & Bx), (Tr AY) as (Ty & Iy & By), (Tr AZ) as (Tw & Iz & Bz). exists F, (Tx, Ty, Tw), f, g.
  split; [split; [exact IF|intros i; destruct i; assumption]|]. split; [exact EP|]. rewrite <- Ee. split; [exact CF|]. intros i. rewrite co_scal. rewrite <- Rmult_assoc, (Rmult_comm r1 2), Rmult_assoc. destruct i; assumption.
Qed.
(* two bricks with n points along each edge: the error falls like (r/R)^(2n-1) *)
Theorem C82_bricks : forall gl m1 x1 y1 z1 r1 m2 x2 y2 z2 r2 t n, rules_at gl (n :: nil) -> (1 <= n)%nat ->
  0 < x1 -> 0 < y1 -> 0 < z1 -> 0 < r1 -> (x1 / 2) ^ 2 + (y1 / 2) ^ 2 + (z1 / 2) ^ 2 <= r1 ^ 2 ->
  0 < x2 -> 0 < y2 -> 0 < z2 -> 0 < r2 -> (x2 / 2) ^ 2 + (y2 / 2) ^ 2 + (z2 / 2) ^ 2 <= r2 ^ 2 -> r1 + r2 < vnorm t ->
  let k := (r1 + r2) / vnorm t in
  let e := 4 * INR n * BIG_G * Rabs m1 * Rabs m2 / (vnorm t - (r1 + r2)) ^ 2 * k ^ (2 * n - 1) in
  exists p1 p2 F T f g, gl_rectangle gl m1 x1 y1 z1 n n n = Ok p1 /\ gl_rectangle gl m2 x2 y2 z2 n n n = Ok p2 /\
    interaction pull (of_mass m1 (box z1 x1 y1)) r1 (of_mass m2 (box z2 x2 y2)) r2 t F T /\
    point_matrix_gravity (Rows p1) (translate_point_array (Rows p2) t) = Ok (f, g) /\
    vclose e f (vscal BIG_G F) /\ vclose (r1 * e) g (vscal BIG_G T).
Proof.
  intros gl m1 x1 y1 z1 r1 m2 x2 y2 z2 r2 t n HG Hn X1 Y1 Z1 R1 B1 X2 Y2 Z2 R2 B2 Ht k e.
  assert (G3 : rules_at gl (n :: n :: n :: nil)) by (intros j Hj; apply HG; cbn in *; tauto).
  destruct (C41_rectangle_mass gl m1 x1 y1 z1 n n n G3 Hn Hn Hn) as (p1 & E1 & _). destruct (C41_rectangle_mass gl m2 x2 y2 z2 n n n G3 Hn Hn Hn) as (p2 & E2 & _).
  assert (U1 : ruled gl (2 * n - 1) p1 (of_mass m1 (box z1 x1 y1)) r1 (Rabs m1)) by (apply (u_brick gl (2 * n - 1) m1 x1 y1 z1 n n n p1 r1); (assumption || lia || lra)).
  assert (U2 : ruled gl (2 * n - 1) p2 (of_mass m2 (box z2 x2 y2)) r2 (Rabs m2)) by (apply (u_brick gl (2 * n - 1) m2 x2 y2 z2 n n n p2 r2); (assumption || lia || lra)).
  destruct (C82_gravity gl (2 * n - 1) p1 _ r1 _ p2 _ r2 _ t ltac:(lia) U1 U2 R1 Ht) as (F & T & f & g & IF & EP & CF & CT).
  exists p1, p2, F, T, f, g. split; [exact E1|]. split; [exact E2|]. split; [exact IF|]. split; [exact EP|].
  fold k in CF, CT. set (N := (2 * n - 1)%nat) in *. set (e0 := 2 * _) in CF, CT.
  assert (HT : 0 < vnorm t) by lra. assert (K0 : 0 < k) by (unfold k; apply Rdiv_lt_0_compat; lra).
  assert (HN : INR N + 1 = 2 * INR n) by (rewrite <- S_INR; replace (S N) with (2 * n)%nat by (unfold N; lia); rewrite mult_INR; cbn; ring).
  assert (LE : e0 <= e).
  { unfold e0, e. assert (P : 0 <= BIG_G * Rabs m1 * Rabs m2 * (k ^ N * / (vnorm t - (r1 + r2)) ^ 2)).
    { assert (A := G_pos). assert (A1 := Rabs_pos m1). assert (A2 := Rabs_pos m2). apply Rmult_le_pos; [apply Rmult_le_pos; [apply Rmult_le_pos; assumption|assumption]|].
      apply Rmult_le_pos; [apply pow_le; lra|left; apply Rinv_0_lt_compat, pow_lt; lra]. }
    assert (Q : INR N + 1 - INR N * k <= 2 * INR n) by (assert (0 <= INR N * k) by (apply Rmult_le_pos; [apply pos_INR|lra]); lra).
    unfold Rdiv. replace (4 * INR n * BIG_G * Rabs m1 * Rabs m2 * / (vnorm t - (r1 + r2)) ^ 2 * k ^ N) with (2 * (BIG_G * Rabs m1 * Rabs m2 * (k ^ N * / (vnorm t - (r1 + r2)) ^ 2) * (2 * INR n))) by ring.
    apply Rmult_le_compat_l; [lra|]. replace (BIG_G * Rabs m1 * Rabs m2 * (k ^ N * (INR N + 1 - INR N * k) * / (vnorm t - (r1 + r2)) ^ 2)) with (BIG_G * Rabs m1 * Rabs m2 * (k ^ N * / (vnorm t - (r1 + r2)) ^ 2) * (INR N + 1 - INR N * k)) by ring.
    now apply Rmult_le_compat_l. }
  split; intros i; [specialize (CF i)|specialize (CT i)]; eapply Rle_trans; [exact CF|exact LE|exact CT|apply Rmult_le_compat_l; [lra|exact LE]].
Qed.
(* numbers of points that reach any accuracy exist *)
Theorem C82_any_accuracy : forall r1 M1 r2 M2 t, 0 < r1 -> 0 <= r2 -> r1 + r2 < vnorm t -> forall eps, 0 < eps -> exists N0 : nat, forall N, (N0 <= N)%nat -> forall gl pts D1 qts D2,
  ruled gl N pts D1 r1 M1 -> ruled gl N qts D2 r2 M2 ->
  exists F T f g, interaction pull D1 r1 D2 r2 t F T /\ point_matrix_gravity (Rows pts) (translate_point_array (Rows qts) t) = Ok (f, g) /\
    vclose eps f (vscal BIG_G F) /\ vclose eps g (vscal BIG_G T).
Proof.
  intros r1 M1 r2 M2 t H1 H2 Ht eps He. set (k := (r1 + r2) / vnorm t). assert (HT : 0 < vnorm t) by lra.
  assert (Hk : 0 <= k < 1). { split; [apply Rdiv_le_0_compat; lra|]. unfold k. apply (Rmult_lt_reg_r (vnorm t)); [lra|]. unfold Rdiv. rewrite Rmult_assoc, Rinv_l by lra. lra. }
  set (gap := vnorm t - (r1 + r2)). assert (Hg : 0 < gap ^ 2) by (apply pow_lt; unfold gap; lra).
  assert (Hgn : gap <> 0) by (intros E; rewrite E in Hg; cbn in Hg; lra).
  set (A := 2 * (BIG_G * Rabs M1 * Rabs M2 / gap ^ 2) * (1 + r1)).
  assert (A0 : 0 <= A). { unfold A. assert (G := G_pos). assert (A1 := Rabs_pos M1). assert (A2 := Rabs_pos M2). apply Rmult_le_pos; [|lra]. apply Rmult_le_pos; [lra|]. apply Rdiv_le_0_compat; [|exact Hg]. apply Rmult_le_pos; [apply Rmult_le_pos; assumption|assumption]. }
  assert (L := poly_geom_lim 1 k Hk). apply is_lim_seq_spec in L. assert (Hd : 0 < eps / (A + 1)) by (apply Rdiv_lt_0_compat; lra).
  destruct (L (mkposreal _ Hd)) as (N0 & HL). exists (S N0). intros N HN gl pts D1 qts D2 U1 U2. specialize (HL N ltac:(lia)). cbn [pos] in HL. rewrite Rminus_0_r, pow_1 in HL.
  destruct (C82_gravity gl N pts D1 r1 M1 qts D2 r2 M2 t ltac:(lia) U1 U2 H1 Ht) as (F & T & f & g & IF & EP & CF & CT). fold k gap in CF, CT. set (e := 2 * _) in CF, CT.
  exists F, T, f, g. split; [exact IF|]. split; [exact EP|].
  assert (K := pow_le k N (proj1 Hk)). set (u := INR (S N) * k ^ N) in *. assert (P := pos_INR N).
  assert (U0 : 0 <= u) by (apply Rmult_le_pos; [apply pos_INR|exact K]). rewrite (Rabs_pos_eq u U0) in HL.
  assert (Q : 0 <= k ^ N * (INR N + 1 - INR N * k) <= u).
  { assert (INR N * k <= INR N) by (rewrite <- (Rmult_1_r (INR N)) at 2; apply Rmult_le_compat_l; lra). assert (0 <= INR N * k) by (apply Rmult_le_pos; lra).
    split; [apply Rmult_le_pos; [exact K|lra]|]. unfold u. rewrite S_INR, Rmult_comm. apply Rmult_le_compat_r; [exact K|lra]. }
  assert (LE : Rabs e * (1 + r1) <= eps).
  { unfold e. replace (2 * (BIG_G * M1 * M2 * (k ^ N * (INR N + 1 - INR N * k) / gap ^ 2))) with (2 * (BIG_G * M1 * M2 / gap ^ 2) * (k ^ N * (INR N + 1 - INR N * k))) by (field; exact Hgn).
    rewrite Rabs_mult, (Rabs_pos_eq (k ^ N * _)) by apply Q. unfold Rdiv. rewrite !Rabs_mult, (Rabs_pos_eq 2) by lra. rewrite (Rabs_pos_eq BIG_G G_pos), (Rabs_pos_eq (/ gap ^ 2)) by (left; now apply Rinv_0_lt_compat).
    set (v := k ^ N * _) in *. clearbody v. apply Rle_trans with (A * u).
    - unfold A, Rdiv. replace (2 * (BIG_G * Rabs M1 * Rabs M2 * / gap ^ 2) * v * (1 + r1)) with (2 * (BIG_G * Rabs M1 * Rabs M2 * / gap ^ 2) * (1 + r1) * v) by ring. apply Rmult_le_compat_l; [exact A0|lra].
    - assert (E : (A + 1) * (eps / (A + 1)) = eps) by (field; lra). apply Rle_trans with ((A + 1) * u); [apply Rmult_le_compat_r; lra|]. rewrite <- E. apply Rmult_le_compat_l; lra. }
  assert (A1 := Rle_abs e). assert (A2 := Rabs_pos e). assert (LE1 : e <= eps) by (assert (0 <= Rabs e * r1) by (apply Rmult_le_pos; lra); lra).
  assert (LE2 : r1 * e <= eps) by (assert (r1 * e <= r1 * Rabs e) by (apply Rmult_le_compat_l; lra); lra).
  split; intros i; [specialize (CF i)|specialize (CT i)]; lra.
Qed.
(* two bricks of 2 x 3 x 4 with 5 points along each edge, the second 11 away *)
Example C82_case : exists gl pts qts, ruled gl 9 pts (of_mass 1 (box 4 2 3)) 3 (Rabs 1) /\ ruled gl 9 qts (of_mass 2 (box 4 2 3)) 3 (Rabs 2) /\
  exists F T f g, interaction pull (of_mass 1 (box 4 2 3)) 3 (of_mass 2 (box 4 2 3)) 3 (0, 0, 12) F T /\
    point_matrix_gravity (Rows pts) (translate_point_array (Rows qts) (0, 0, 12)) = Ok (f, g) /\ vclose (BIG_G / 400) f (vscal BIG_G F).
Proof.
  destruct (C41_rules_exist (5 :: nil)%nat) as (gl & HG). assert (VT : vnorm (0, 0, 12) = 12) by (unfold vnorm; replace (0 ^ 2 + 0 ^ 2 + 12 ^ 2) with (12 ^ 2) by ring; apply sqrt_pow2; lra).
  assert (G3 : rules_at gl (5 :: 5 :: 5 :: nil)%nat) by (intros j Hj; apply HG; cbn in *; tauto).
  destruct (C82_bricks gl 1 2 3 4 3 2 2 3 4 3 (0, 0, 12) 5 HG) as (p1 & p2 & F & T & f & g & E1 & E2 & IF & EP & CF & _); try lra; try lia.
  exists gl, p1, p2. split; [apply (u_brick gl 9 1 2 3 4 5 5 5 p1 3); (assumption || lia || lra)|]. split; [apply (u_brick gl 9 2 2 3 4 5 5 5 p2 3); (assumption || lia || lra)|].
  exists F, T, f, g. split; [exact IF|]. split; [exact EP|]. intros i. eapply Rle_trans; [exact (CF i)|]. rewrite VT. replace (Rabs 1) with 1 by (symmetry; apply Rabs_pos_eq; lra). replace (Rabs 2) with 2 by (symmetry; apply Rabs_pos_eq; lra).
  replace (INR 5) with 5 by (cbn; ring). change (2 * 5 - 1)%nat with 9%nat. replace ((3 + 3) / 12) with (/ 2) by field.
  assert (G := G_pos). set (b := BIG_G) in *. clearbody b. lra.
Qed.
Print Assumptions C82_gravity. Print Assumptions C82_bricks. Print Assumptions C82_any_accuracy. Print Assumptions C82_case.
