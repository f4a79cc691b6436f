(* The multipole energy, force and torque of two mass distributions tend to the double integrals. *)
From Coq Require Import Reals Lra Lia ZArith List.
From Coquelicot Require Import Coquelicot.
From Verif Require Import Props_Glib Props_Moments Props_Multipole Props_Torque Addition Legendre TransRecProofs RotationsProofs2 RotSpec Rotations TransSpec GlibProofs GlibProofs2 NewtonSpec Newton CDeriv MultipoleLib MultipoleProofs MultipoleProofs2.
From Verif Require Import Tri Solid Translations TranslationsProofs Pg2Multi Pg2MultiProofs Props_Translations Props_Rotations Props_Newton Rotor Irreg Irreg2 Props_Series Props_Series2 VInt.
From Verif Require Import SeriesSpec BodySpec BodyPair.
From Verif Require Import Cplx.
Import ListNotations.
Open Scope C_scope.

Lemma moments_density q D : moments_of q D -> filled_moments q 1 D.
Proof. intros [H Hc]. split; [|exact Hc]. intros l m Hl Hm. exists (mom q l m). split; [now apply H|ring]. Qed.
Lemma moments_reality q D : regular D -> moments_of q D -> reality q.
Proof.
  intros RD [H Hc] l m Hl Hm. destruct (Z_lt_le_dec l (Z.abs m)) as [h|h].
  - rewrite !Hc by lia. rewrite Cconj_RtoC. ring.
  - apply (reg_unique D RD (fun x y z => rsolid l (- m) (x, y, z))); [apply H; lia|].
    apply (reg_ext D RD (fun x y z => sgnC m * Cconj (rsolid l m (x, y, z)))); [intros; symmetry; apply rsolid_symm|]. apply (reg_scal D RD), (reg_conj D RD), H; lia.
Qed.
Definition au (L : Z) (a b T : R) (N : nat) : R := Rabs (unif L a b T N).
Lemma au_lim L a b T : (0 <= L)%Z -> (0 <= a)%R -> (0 <= b)%R -> (a + b < T)%R -> is_lim_seq (au L a b T) 0%R.
Proof. intros. replace (Finite 0%R) with (Rbar_abs (Finite 0%R)) by (cbn; now rewrite Rabs_R0). apply (is_lim_seq_abs (unif L a b T)). now apply unif_lim. Qed.
Lemma au_bound L p s t a b N : (0 <= L)%Z -> (vnorm p <= a)%R -> (vnorm s <= b)%R -> (a + b < vnorm t)%R -> (pair_err L p s t N <= au L a b (vnorm t) N)%R.
Proof. intros. eapply Rle_trans; [now apply (pair_err_unif L p s t a b)|]. apply Rle_abs. Qed.
Definition cf (e : vec) : R := (Cmod (Av e) + Cmod (zv e) + Cmod (Bv e))%R.
Lemma cf_ge0 e : (0 <= cf e)%R.
Proof. unfold cf. assert (A := Cmod_ge_0 (Av e)). assert (B := Cmod_ge_0 (zv e)). assert (D := Cmod_ge_0 (Bv e)). lra. Qed.
Lemma vsub_add v X w t : vsub (vadd w t) (vadd v X) = vsub (vadd w t) (vadd v X). Proof. reflexivity. Qed.
Lemma q2Q_Ok qs t : (0 <= deg qs)%Z -> (0 < vnorm t)%R -> exists Q, translate_q2Q qs t = Ok Q /\ deg Q = deg qs.
Proof. intros H Ht. destruct (translate_q2Q_holds qs t H ltac:(lra)) as (Q & E & D & _). now exists Q. Qed.
Lemma energy_limit B1 r1 B2 r2 t c J eps : regular B1 -> regular B2 -> confined B1 r1 -> confined B2 r2 -> (0 <= r1)%R -> (0 <= r2)%R -> (r1 + r2 < vnorm t)%R -> (0 < eps)%R ->
  pair_integral B1 r1 B2 r2 (fun v w => near_energy v (vadd w t)) J ->
  exists D, forall q qs, (D <= deg q)%Z -> deg qs = deg q -> moments_of q B1 -> moments_of qs B2 ->
  exists Q, translate_q2Q qs t = Ok Q /\ deg Q = deg q /\ (Cmod (work c (deg q) (mom q) (mom Q) - RtoC (c * J))%C < eps)%R.
Proof.
  intros R1 R2 C1 C2 H1 H2 Ht He HJ.
  destruct (pair_limit B1 B2 r1 r2 _ J 1 (fun N => au 0 r1 r2 (vnorm t) (S N)) (fun N v w => en N v w t) c eps R1 R2 C1 C2 HJ He ltac:(lra)) as (D & HD & B).
  - intros N. apply Rabs_pos.
  - apply -> is_lim_seq_incr_1. apply au_lim; lia || lra.
  - intros N v w Hv Hw. rewrite Rmult_1_l. eapply Rle_trans; [apply (en_err (S N) v w t); lra|]. now apply au_bound.
  - exists D. intros q qs Hd Dq M1 M2. destruct (q2Q_Ok qs t ltac:(lia) ltac:(lra)) as (Q & E & DQ). exists Q. split; [exact E|]. split; [lia|].
    destruct (energy_form B1 B2 1 1 q qs Q t R1 R2 ltac:(lia) Dq ltac:(lra) (moments_density _ _ M1) (moments_density _ _ M2) E) as (I & P & W). rewrite W, !Rmult_1_r. now apply (B (deg q)).
Qed.
Lemma pull_limit i B1 r1 B2 r2 t X c J eps : regular B1 -> regular B2 -> confined B1 r1 -> confined B2 r2 -> (0 <= r1)%R -> (0 <= r2)%R -> (r1 + vnorm X + r2 < vnorm t)%R -> (0 < eps)%R ->
  pair_integral B1 r1 B2 r2 (fun v w => pull (axis_e i) (vadd v X) (vadd w t)) J ->
  exists D, (1 <= D)%Z /\ forall L I, (D <= L)%Z -> pairC B1 B2 (fun v w => den L (axis_e i) (vadd v X) w t) I -> (Cmod (RtoC c * I - RtoC (c * J))%C < eps)%R.
Proof.
  intros R1 R2 C1 C2 H1 H2 Ht He HJ. assert (HX := vnorm_ge0 X).
  apply (pair_limit B1 B2 r1 r2 _ J (cf (axis_e i)) (au 1 (r1 + vnorm X) r2 (vnorm t)) (fun L v w => den L (axis_e i) (vadd v X) w t) c eps R1 R2 C1 C2 HJ He (cf_ge0 _)).
  - intros N. apply Rabs_pos.
  - apply au_lim; lia || lra.
  - intros N v w Hv Hw. assert (T := vnorm_triangle v X). eapply Rle_trans; [apply (den_err N (axis_e i) (vadd v X) w t); lra|]. apply Rmult_le_compat_l; [apply cf_ge0|]. apply au_bound; (lia || lra).
Qed.
Lemma force_limit B1 r1 B2 r2 t x y z c Fx Fy Fz eps : regular B1 -> regular B2 -> confined B1 r1 -> confined B2 r2 -> (0 <= r1)%R -> (0 <= r2)%R -> (r1 + vnorm (x, y, z) + r2 < vnorm t)%R -> (0 < eps)%R ->
  pair_integral B1 r1 B2 r2 (fun v w => pull (1, 0, 0) (vadd v (x, y, z)) (vadd w t))%R Fx ->
  pair_integral B1 r1 B2 r2 (fun v w => pull (0, 1, 0) (vadd v (x, y, z)) (vadd w t))%R Fy ->
  pair_integral B1 r1 B2 r2 (fun v w => pull (0, 0, 1) (vadd v (x, y, z)) (vadd w t))%R Fz ->
  exists D, forall q qs, (D <= deg q)%Z -> deg qs = deg q -> moments_of q B1 -> moments_of qs B2 ->
  exists Q f, translate_q2Q qs t = Ok Q /\ multipole_force (deg q) q Q x y z c = Ok f /\ near eps f (c * Fx, c * Fy, c * Fz)%R.
Proof.
  intros R1 R2 C1 C2 H1 H2 Ht He JX JY JZ. assert (HX := vnorm_ge0 (x, y, z)%R).
  destruct (pull_limit 0 B1 r1 B2 r2 t (x, y, z)%R c Fx eps R1 R2 C1 C2 H1 H2 Ht He JX) as (D1 & HD1 & K1).
  destruct (pull_limit 1 B1 r1 B2 r2 t (x, y, z)%R c Fy eps R1 R2 C1 C2 H1 H2 Ht He JY) as (D2 & HD2 & K2).
  destruct (pull_limit 2 B1 r1 B2 r2 t (x, y, z)%R c Fz eps R1 R2 C1 C2 H1 H2 Ht He JZ) as (D3 & HD3 & K3).
  exists (Z.max D1 (Z.max D2 D3)). intros q qs Hd Dq M1 M2. destruct (q2Q_Ok qs t ltac:(lia) ltac:(lra)) as (Q & E & DQ).
  destruct (multipole_force_grad q Q x y z c ltac:(lia) ltac:(lia) ltac:(lia)) as (fx & fy & fz & EF & _).
  exists Q, (fx, fy, fz). split; [exact E|]. split; [exact EF|].
  assert (F := fun i => force_form B1 B2 1 1 q qs Q t R1 R2 ltac:(lia) Dq ltac:(lra) (moments_density _ _ M1) (moments_density _ _ M2) E i x y z c fx fy fz ltac:(lia) EF).
  destruct (F 0%nat) as (I1 & P1 & W1). destruct (F 1%nat) as (I2 & P2 & W2). destruct (F 2%nat) as (I3 & P3 & W3). rewrite !Rmult_1_r in *.
  unfold near. rewrite W1, W2, W3. split; [now apply (K1 (deg q)); [lia|]|split; [now apply (K2 (deg q)); [lia|]|now apply (K3 (deg q)); [lia|]]].
Qed.
Lemma zspin_cross phi v : vcross (0, 0, 1)%R (zrot phi v) = zspin phi v.
Proof. destruct v as [[a b] d]. unfold vcross, zrot, zspin. apply v3; ring. Qed.
Lemma cf_zspin phi v r : (vnorm v <= r)%R -> (cf (zspin phi v) <= 4 * r)%R.
Proof.
  intros H. destruct v as [[a b] d]. rewrite vnorm_xyz in H. unfold cf, zspin, Av, Bv, zv. set (A := (- sin phi * a - cos phi * b)%R). set (B := (cos phi * a - sin phi * b)%R).
  assert (Sq : forall u w s : R, (u * u + w * w = a * a + b * b)%R -> (Cmod (RtoC u + Ci * RtoC w)%C <= r)%R).
  { intros u w s Hu. eapply Rle_trans; [|exact H]. unfold Cmod. apply sqrt_le_1_alt. cbn [fst snd Cplus Cmult RtoC Ci]. assert (0 <= d * d)%R by nra. replace ((u + (0 * w - 1 * 0)) ^ 2 + (0 + (0 * 0 + 1 * w)) ^ 2)%R with (u * u + w * w)%R by ring. rewrite Hu. nra. }
  assert (E : (A * A + B * B = a * a + b * b)%R).
  { unfold A, B. assert (T := sin2_cos2 phi). unfold Rsqr in T. transitivity ((sin phi * sin phi + cos phi * cos phi) * (a * a + b * b))%R; [ring|rewrite T; ring]. }
  assert (H1 := Sq A B 0%R E). assert (H2 := Sq (- A)%R B 0%R ltac:(rewrite <- E; ring)).
  assert (H2' := Sq A (- B)%R 0%R ltac:(rewrite <- E; ring)).
  assert (E1 : Cmod (- (RtoC A - Ci * RtoC B) / RtoC 2)%C = (Cmod (RtoC A + Ci * RtoC (- B))%C / 2)%R).
  { rewrite Cmod_div by (apply RtoC_neq0; lra). rewrite Cmod_opp, Cmod_R, Rabs_pos_eq by lra. f_equal. f_equal. rewrite RtoC_opp. ring. }
  assert (E2 : Cmod ((RtoC A + Ci * RtoC B) / RtoC 2)%C = (Cmod (RtoC A + Ci * RtoC B)%C / 2)%R).
  { rewrite Cmod_div by (apply RtoC_neq0; lra). now rewrite Cmod_R, Rabs_pos_eq by lra. }
  rewrite E1, E2, Cmod_0. assert (0 <= r)%R by (eapply Rle_trans; [apply Cmod_ge_0|exact H1]). lra.
Qed.
Lemma torque_at q Q c nlm nc ns phi : (0 <= deg q)%Z -> deg Q = deg q -> reality q -> corners0 q -> reality Q -> torque_lm q Q c = Ok (nlm, nc, ns) ->
  exists n, torques_at_angle nc ns phi false = Ok n /\ RtoC n = KG c * dot (deg q) (wt (ez phi) q) (Qw Q).
Proof.
  intros HL DQ Rq Cq RQ E.
  destruct (C31_torques_at_angle q Q c phi false nlm nc ns HL DQ Rq Cq RQ E) as (q' & n' & c' & s' & t & E1 & E2 & E3 & E4).
  exists t. split; [exact E3|]. assert (Sm := rot_wt _ _ _ HL Cq E1). assert (Dq : deg q' = deg q) by (apply Sm).
  destruct (torque_lm_ok q' Q c ltac:(lia) ltac:(lia)) as (a1 & a2 & a3 & E' & Ht'). rewrite E2 in E'. injection E' as <- <- <-.
  assert (C' : corners0 q') by (intros l m Hl Hm; rewrite Dq in *; rewrite (proj2 Sm) by (rewrite ?Dq; lia); apply wt_corners; [exact Cq|cbn; lia|cbn; lia]).
  rewrite <- E4, (total_dot (deg q') (KG c) q' (Qw Q) _ _ _ ltac:(lia) eq_refl Ht' C'), Dq. f_equal. apply dot_ext; [|reflexivity]. intros l m Hl Hm. apply Sm; lia.
Qed.
Lemma torque_limit B1 r1 B2 r2 t phi c T eps : regular B1 -> regular B2 -> confined B1 r1 -> confined B2 r2 -> (0 <= r1)%R -> (0 <= r2)%R -> (r1 + r2 < vnorm t)%R -> (0 < eps)%R ->
  pair_integral B1 r1 B2 r2 (fun v w => twist (zrot phi v) (vadd w t)) T ->
  exists D, forall q qs, (D <= deg q)%Z -> deg qs = deg q -> moments_of q B1 -> moments_of qs B2 ->
  exists Q nlm nc ns n, translate_q2Q qs t = Ok Q /\ torque_lm q Q c = Ok (nlm, nc, ns) /\ torques_at_angle nc ns phi false = Ok n /\ (Rabs (n - c * T) < eps)%R.
Proof.
  intros R1 R2 C1 C2 H1 H2 Ht He HJ.
  destruct (pair_limit B1 B2 r1 r2 _ T (4 * r1) (au 1 r1 r2 (vnorm t)) (fun L v w => den L (zspin phi v) (zrot phi v) w t) c eps R1 R2 C1 C2 HJ He ltac:(lra)) as (D & HD & K).
  - intros N. apply Rabs_pos.
  - apply au_lim; lia || lra.
  - intros N v w Hv Hw. unfold twist, pull. rewrite zspin_cross. assert (Hz := vnorm_zrot phi v). eapply Rle_trans; [apply (den_err N (zspin phi v) (zrot phi v) w t); lra|].
    eapply Rle_trans; [apply Rmult_le_compat_l; [apply cf_ge0|apply (au_bound 1 (zrot phi v) w t r1 r2 N); (lia || lra)]|]. apply Rmult_le_compat_r; [apply Rabs_pos|now apply cf_zspin].
  - exists D. intros q qs Hd Dq M1 M2. destruct (q2Q_Ok qs t ltac:(lia) ltac:(lra)) as (Q & E & DQ).
    destruct (torque_lm_ok q Q c ltac:(lia) ltac:(lia)) as (nlm & nc & ns & En & _).
    assert (RQ : reality Q) by (eapply q2Q_symm; [|exact (moments_reality _ _ R2 M2)|exact E]; lia).
    destruct (torque_at q Q c nlm nc ns phi ltac:(lia) ltac:(lia) (moments_reality _ _ R1 M1) (proj2 M1) RQ En) as (n & Et & W).
    exists Q, nlm, nc, ns, n. split; [exact E|]. split; [exact En|]. split; [exact Et|].
    destruct (torque_form B1 B2 1 1 q qs Q t R1 R2 ltac:(lia) Dq ltac:(lra) (moments_density _ _ M1) (moments_density _ _ M2) E phi c ltac:(lia)) as (I & P & W2).
    rewrite W2, !Rmult_1_r in W. assert (Bd := K (deg q) I ltac:(lia) P). rewrite <- W, <- RtoC_minus, Cmod_R in Bd. exact Bd.
Qed.
