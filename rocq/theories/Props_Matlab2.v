(* C67: computeMoments.m and computeMomentSummary.m *)
From Verif Require Import MomentSpec Pg2Multi Pg2MultiProofs Props_Moments Props_Multipole Props_Cyl Qlm GlibShapes GlibShapesProofs Solid Tri Sums.
From Verif Require Import Matlab Cplx.
Open Scope C_scope.

(* ---- specification: what computeMoments takes the body to be ---- *)
(* every point off the z axis reflected in the plane z = 0, points on the axis kept *)
Definition on_axis (v : vec) : Prop := let '(x, y, z) := v in x = 0%R /\ y = 0%R.
Definition mirrored (p : pt) : pt := let '(x, y, z) := pp p in mkpt (pm p) (x, y, - z)%R.
Definition as_seen (p p' : pt) : Prop := (on_axis (pp p) -> p' = p) /\ (~ on_axis (pp p) -> p' = mirrored p).

Lemma o_YLM_is l m th ph : (0 <= m <= l)%Z -> o_YLM l m th ph = Ok (sph_harm m l ph th).
Proof.
  intros H. unfold o_YLM, sph_harm. rewrite (proj2 (Z.ltb_ge m 0)), (proj2 (Z.ltb_ge l m)), Z.abs_eq by lia. reflexivity.
Qed.
Lemma sqrt_0_iff x y : sqrt (x ^ 2 + y ^ 2) = 0%R <-> x = 0%R /\ y = 0%R.
Proof.
  assert (A := pow2_ge_0 x). assert (B := pow2_ge_0 y). split.
  - intros E. apply sqrt_eq_0 in E; [|lra]. assert (X : (x ^ 2 = 0)%R) by lra. assert (Y : (y ^ 2 = 0)%R) by lra. cbn in X, Y. rewrite Rmult_1_r in X, Y.
    split; [destruct (Rmult_integral _ _ X)|destruct (Rmult_integral _ _ Y)]; assumption.
  - intros [-> ->]. replace (0 ^ 2 + 0 ^ 2)%R with 0%R by ring. apply sqrt_0.
Qed.
Lemma o_phi_polar x y : ~ (x = 0 /\ y = 0)%R -> (x = rad x y * cos (o_phi x y) /\ y = rad x y * sin (o_phi x y))%R.
Proof.
  intros N. assert (Hp := PI_RGT_0). unfold o_phi. cbv zeta. destruct (Req_EM_T x 0) as [->|Hx].
  - rewrite is0_yes by reflexivity. rewrite (proj2 (rlt_no 0 0)) by lra. unfold rad. replace (0 ^ 2 + y ^ 2)%R with (y * y)%R by ring. fold (Rsqr y). rewrite sqrt_Rsqr_abs.
    destruct (Rlt_dec 0 y) as [Hy|Hy].
    + rewrite (proj2 (rlt_iff 0 y)) by exact Hy. rewrite cos_PI2, sin_PI2, Rabs_right by lra. lra.
    + rewrite (proj2 (rlt_no 0 y)) by lra. assert (Hy2 : (y < 0)%R) by (destruct (Rtotal_order y 0) as [K|[K|K]]; [exact K|elim N; auto|lra]).
      rewrite (proj2 (rlt_iff y 0)) by exact Hy2. replace (- PI / 2)%R with (- (PI / 2))%R by field. rewrite cos_neg, sin_neg, cos_PI2, sin_PI2, Rabs_left by lra. lra.
  - rewrite is0_no by exact Hx. rewrite rad_scale by exact Hx. assert (S := sqrt_1_t (y / x)).
    destruct (Rlt_dec x 0) as [H|H].
    + rewrite (proj2 (rlt_iff x 0)) by exact H. rewrite neg_cos, neg_sin, cos_at, sin_at, Rabs_left by lra. split; field; lra.
    + rewrite (proj2 (rlt_no x 0)) by lra. rewrite cos_at, sin_at, Rabs_right by lra. split; field; lra.
Qed.
Lemma o_theta_off x y z : ~ (x = 0 /\ y = 0)%R -> let r := sqrt (x ^ 2 + y ^ 2 + z ^ 2) in
  ((0 <= o_theta x y z <= PI) /\ r * sin (o_theta x y z) = rad x y /\ r * cos (o_theta x y z) = - z)%R.
Proof.
  intros N r. unfold o_theta. cbv zeta. fold (rad x y). assert (Hr : rad x y <> 0%R) by (intros E; apply N; now apply sqrt_0_iff).
  assert (Hr' : (0 < rad x y)%R) by (assert (K := rad_nonneg x y); lra). rewrite is0_no by exact Hr. assert (B := atan_bound (z / rad x y)).
  split; [lra|]. rewrite (Rplus_comm (atan (z / rad x y)) (PI / 2)).
  assert (Es : sin (PI / 2 + atan (z / rad x y)) = cos (atan (z / rad x y))) by (rewrite cos_sin; reflexivity).
  assert (Ec : cos (PI / 2 + atan (z / rad x y)) = (- sin (atan (z / rad x y)))%R) by (rewrite sin_cos; ring).
  rewrite Es, Ec, cos_at, sin_at.
  assert (Er : r = (rad x y * sqrt (1 + (z / rad x y) ^ 2))%R).
  { unfold r. rewrite <- (rad_sq x y). rewrite <- (sqrt_pow2 (rad x y)) at 2 by lra. rewrite <- sqrt_mult; [|apply pow2_ge_0|assert (K := pow2_ge_0 (z / rad x y)); lra]. f_equal. field. exact Hr. }
  assert (S := sqrt_1_t (z / rad x y)). rewrite Er. split; field; lra.
Qed.
(* r^l conj(Y_lm) at the angles the code uses *)
Lemma o_point l m v v' : (0 <= m <= l)%Z -> (on_axis v -> v' = v) -> (~ on_axis v -> v' = let '(x, y, z) := v in (x, y, - z)%R) ->
  let '(x, y, z) := v in let r := sqrt (x ^ 2 + y ^ 2 + z ^ 2) in
  RtoC (r ^ Z.to_nat l) * Cconj (sph_harm m l (if rlt 0 r then o_phi x y else 0%R) (if rlt 0 r then o_theta x y z else 0%R)) = rsolid l m v'.
Proof.
  intros Hm A B. destruct v as [[x y] z]. intros r. cbn [on_axis] in *. assert (Hp := PI_RGT_0).
  assert (G : forall th ph, (0 <= th <= PI)%R -> v' = (r * sin th * cos ph, r * sin th * sin ph, r * cos th)%R -> RtoC (r ^ Z.to_nat l) * Cconj (sph_harm m l ph th) = rsolid l m v').
  { intros th ph Ht ->. symmetry. apply C08_solid_is_sph_harm; [lia|exact Ht]. }
  assert (Dec : (x = 0 /\ y = 0)%R \/ ~ (x = 0 /\ y = 0)%R) by (destruct (Req_EM_T x 0), (Req_EM_T y 0); tauto).
  destruct Dec as [O|O].
  - rewrite (A O). destruct O as [-> ->]. assert (Er : r = Rabs z) by (unfold r; replace (0 ^ 2 + 0 ^ 2 + z ^ 2)%R with (Rsqr z) by (unfold Rsqr; ring); apply sqrt_Rsqr_abs).
    rewrite <- (A (conj eq_refl eq_refl)). destruct (Rlt_dec 0 r) as [Hr|Hr].
    + rewrite (proj2 (rlt_iff 0 r)) by exact Hr. apply G; unfold o_theta; cbv zeta; rewrite (is0_yes (sqrt _)) by (now apply sqrt_0_iff).
      * destruct (rlt 0 z); [lra|]. destruct (rlt z 0); lra.
      * rewrite (A (conj eq_refl eq_refl)). destruct (Rlt_dec 0 z) as [Hz|Hz].
        -- rewrite (proj2 (rlt_iff 0 z)) by exact Hz. rewrite sin_0, cos_0, Er, Rabs_right by lra. refine (f_equal2 pair (f_equal2 pair _ _) _); ring.
        -- rewrite (proj2 (rlt_no 0 z)) by lra. assert (Hz2 : (z < 0)%R) by (destruct (Rtotal_order z 0) as [K|[K|K]]; [exact K|subst z; rewrite Rabs_R0 in Er; lra|lra]).
           rewrite (proj2 (rlt_iff z 0)) by exact Hz2. rewrite sin_PI, cos_PI, Er, Rabs_left by lra. refine (f_equal2 pair (f_equal2 pair _ _) _); ring.
    + rewrite (proj2 (rlt_no 0 r)) by lra. assert (Hz : z = 0%R) by (destruct (Req_EM_T z 0) as [K|K]; [exact K|assert (K2 := Rabs_pos_lt z K); lra]).
      apply G; [lra|]. rewrite (A (conj eq_refl eq_refl)). subst z. rewrite Rabs_R0 in Er. rewrite Er. refine (f_equal2 pair (f_equal2 pair _ _) _); ring.
  - assert (Hr : (0 < r)%R).
    { apply sqrt_lt_R0. assert (P1 := pow2_ge_0 x). assert (P2 := pow2_ge_0 y). assert (P3 := pow2_ge_0 z). destruct (Req_EM_T x 0) as [->|Kx].
      - assert (Ky : y <> 0%R) by tauto. assert (0 < y ^ 2)%R by (cbn; nra). lra.
      - assert (0 < x ^ 2)%R by (cbn; nra). lra. }
    rewrite (proj2 (rlt_iff 0 r)) by exact Hr. destruct (o_theta_off x y z O) as (Bt & Es & Ec). destruct (o_phi_polar x y O) as [Ex Ey]. fold r in Es, Ec.
    apply G; [exact Bt|]. rewrite (B O), Es, Ec, <- Ex, <- Ey. reflexivity.
Qed.
Lemma o_moments_fold l m (g : pt -> pt) a : (0 <= m <= l)%Z -> (forall p, as_seen p (g p)) -> o_computeMoments l m a = Ok (inner_moment (map g a) l m).
Proof.
  intros Hm Hg. unfold o_computeMoments.
  assert (H : forall a c, fold_left (fun acc p => do moment <- acc; let '(x, y, z) := pp p in let r := sqrt (x ^ 2 + y ^ 2 + z ^ 2) in
      let theta := if rlt 0 r then o_theta x y z else 0%R in let phi := if rlt 0 r then o_phi x y else 0%R in
      do Y <- o_YLM l m theta phi; Ok (Cplus moment (Cmult (RtoC (pm p * r ^ Z.to_nat l)) (Cconj Y)))) a (Ok c) = Ok (c + inner_moment (map g a) l m)).
  { induction a0 as [|p a0 IH]; intros c; [cbn; f_equal; unfold inner_moment; cbn; ring|]. cbn [fold_left bind map].
    destruct (Hg p) as [G1 G2]. assert (Q := o_point l m (pp p) (pp (g p)) Hm).
    assert (Epm : pm (g p) = pm p).
    { destruct p as [M [[x y] z]]. cbn [pp pm] in *. assert (Dec : on_axis (x, y, z) \/ ~ on_axis (x, y, z)) by (cbn; destruct (Req_EM_T x 0), (Req_EM_T y 0); tauto). destruct Dec as [O|O]; [now rewrite (G1 O)|now rewrite (G2 O)]. }
    destruct p as [M [[x y] z]]. cbn [pp pm] in *. cbv zeta in *. rewrite o_YLM_is by exact Hm. cbn [bind]. rewrite IH. f_equal.
    unfold inner_moment. cbn [lsum fold_right map]. rewrite <- Q, Epm.
    - rewrite RtoC_mult. ring.
    - intros O. now rewrite (G1 O).
    - intros O. now rewrite (G2 O). }
  rewrite H. f_equal. ring.
Qed.
(* ---- C67 ---- *)
(* computeMoments(l, m, a) is q_lm of the body with every point off the z axis reflected in z = 0 *)
Theorem C67_computeMoments : forall l m a a', (0 <= m <= l)%Z -> List.Forall2 as_seen a a' -> o_computeMoments l m a = Ok (inner_moment a' l m).
Proof.
  intros l m a a' Hm H. 
  assert (X : forall p : pt, {p' | as_seen p p'}).
  { intros p. destruct p as [M [[x y] z]]. destruct (Req_EM_T x 0) as [Ex|Ex]; [destruct (Req_EM_T y 0) as [Ey|Ey]|].
    - exists (mkpt M (x, y, z)). split; [reflexivity|]. cbn. tauto.
    - exists (mirrored (mkpt M (x, y, z))). split; [cbn; tauto|reflexivity].
    - exists (mirrored (mkpt M (x, y, z))). split; [cbn; tauto|reflexivity]. }
  rewrite (o_moments_fold l m (fun p => proj1_sig (X p)) a Hm (fun p => proj2_sig (X p))). do 2 f_equal.
  induction H as [|p p' a a' Hp H IH]; [reflexivity|]. cbn [map]. f_equal; [|exact IH]. destruct (proj2_sig (X p)) as [A B]. destruct Hp as [A' B'].
  assert (Dec : on_axis (pp p) \/ ~ on_axis (pp p)) by (destruct p as [M [[x y] z]]; cbn; destruct (Req_EM_T x 0), (Req_EM_T y 0); tauto). destruct Dec as [O|O]; [rewrite (A O), (A' O)|rewrite (B O), (B' O)]; reflexivity.
Qed.
Print Assumptions C67_computeMoments.
Lemma rsolid_mirror l m x y z : (0 <= l)%Z -> rsolid l m (x, y, - z)%R = sgnC (l + m) * rsolid l m (x, y, z).
Proof.
  intros Hl. cbn [rsolid]. destruct (arctan2_polar x y) as (Ex & Ey & _). set (r := rad x y) in *. set (q := arctan2 y x) in *. clearbody r q. rewrite Ex, Ey, !solid_T2, T2_opp by exact Hl. ring.
Qed.
Lemma rsolid_axis l m z : (1 <= m <= l)%Z -> rsolid l m (0, 0, z)%R = 0.
Proof.
  intros Hm. unfold rsolid. replace (solid l m 0 0 z) with (RtoC 0); [ring|]. symmetry.
  assert (E := rsolid_symm l m). destruct (Z.eq_dec l 0) as [->|]; [lia|].
  replace 0%R with (0 * cos 1)%R at 1 by ring. replace 0%R with (0 * sin 1)%R at 2 by ring. rewrite solid_T2.
  assert (P := solid_T2 l m 0 0 z). assert (Q := solid_T2 l m 0 (PI / IZR m) z).
  rewrite !Rmult_0_l in P, Q. rewrite P in Q. rewrite Rmult_0_r, Ropp_0 in Q.
  replace (IZR m * (PI / IZR m))%R with PI in Q by (field; apply not_0_IZR; lia).
  assert (T0 : T2 l m 0 z = 0).
  { assert (C0 : cexpi 0 = RtoC 1) by (unfold cexpi; apply C_eq; cbn; rewrite ?cos_0, ?sin_0; reflexivity).
    assert (C1 : cexpi (- PI) = RtoC (-1)) by (unfold cexpi; apply C_eq; cbn; rewrite ?cos_neg, ?sin_neg, ?cos_PI, ?sin_PI; lra).
    rewrite C0, C1 in Q. set (t := T2 l m 0 z) in *. clearbody t. clear -Q. destruct t as [t1 t2]. unfold RtoC, Cmult in Q. cbn [fst snd] in Q. injection Q as Q1 Q2. unfold RtoC. f_equal; lra. }
  rewrite T0. ring.
Qed.
Definition seen (p : pt) : pt := let '(x, y, z) := pp p in if Req_EM_T x 0 then (if Req_EM_T y 0 then p else mirrored p) else mirrored p.
Lemma seen_ok p : as_seen p (seen p).
Proof. destruct p as [M [[x y] z]]. unfold seen, as_seen, mirrored. cbn. destruct (Req_EM_T x 0), (Req_EM_T y 0); split; tauto. Qed.
Lemma seen_val l m p : (0 <= l)%Z -> rsolid l m (pp (seen p)) = rsolid l m (pp p) /\ on_axis (pp p) \/ (rsolid l m (pp (seen p)) = sgnC (l + m) * rsolid l m (pp p) /\ ~ on_axis (pp p)).
Proof.
  intros Hl. destruct p as [M [[x y] z]]. unfold seen, mirrored. cbn. destruct (Req_EM_T x 0) as [->|]; [destruct (Req_EM_T y 0) as [->|]|]; [left|right|right]; cbn -[rsolid]; (split; [|tauto]); try reflexivity; now apply rsolid_mirror.
Qed.
Lemma seen_pm p : pm (seen p) = pm p.
Proof. destruct p as [M [[x y] z]]. unfold seen, mirrored. cbn. destruct (Req_EM_T x 0); [destruct (Req_EM_T y 0)|]; reflexivity. Qed.
Lemma o_seen l m a : (0 <= m <= l)%Z -> o_computeMoments l m a = Ok (inner_moment (map seen a) l m).
Proof. intros H. apply o_moments_fold; [exact H|exact seen_ok]. Qed.
Lemma inner_seen l m (c : C) a : (0 <= l)%Z -> (forall p, In p a -> rsolid l m (pp (seen p)) = c * rsolid l m (pp p)) -> inner_moment (map seen a) l m = c * inner_moment a l m.
Proof.
  intros Hl H. unfold inner_moment. induction a as [|p a IH]; [cbn; ring|]. cbn [map lsum]. rewrite IH by (intros; apply H; now right). rewrite seen_pm, (H p) by now left. ring.
Qed.
(* right whenever l + m is even, also when points sit at the origin *)
Theorem C67_right_for_even : forall l m a, (0 <= m <= l)%Z -> Z.even (l + m) = true -> o_computeMoments l m a = Ok (inner_moment a l m).
Proof.
  intros l m a Hm He. rewrite o_seen by exact Hm. f_equal. rewrite (inner_seen l m 1) by (try lia; intros p _; destruct (seen_val l m p ltac:(lia)) as [[E _]|[E _]]; rewrite E; unfold sgnC; rewrite ?He; ring). ring.
Qed.
(* the sign is wrong for l + m odd, for every body when m > 0 *)
Theorem C67_sign_for_positive_m : forall l m a, (1 <= m <= l)%Z -> o_computeMoments l m a = Ok (sgnC (l + m) * inner_moment a l m).
Proof.
  intros l m a Hm. rewrite o_seen by lia. f_equal. apply inner_seen; [lia|]. intros p _. destruct (seen_val l m p ltac:(lia)) as [[E O]|[E _]]; [|exact E].
  rewrite E. destruct p as [M [[x y] z]]. cbn [on_axis pp] in *. destruct O as [-> ->]. rewrite rsolid_axis by exact Hm. ring.
Qed.
(* for m = 0 and l odd it is wrong exactly by twice the points off the axis *)
Theorem C67_zonal : forall l off axis, (0 <= l)%Z -> Z.odd l = true -> (forall p, In p off -> ~ on_axis (pp p)) -> (forall p, In p axis -> on_axis (pp p)) ->
  o_computeMoments l 0 (off ++ axis) = Ok (inner_moment axis l 0 - inner_moment off l 0).
Proof.
  intros l off ax Hl Ho H1 H2. rewrite o_seen by lia. f_equal. rewrite map_app, inner_app.
  rewrite (inner_seen l 0 (- 1) off), (inner_seen l 0 1 ax); [ring|lia| |lia|].
  - intros p Hp. destruct (seen_val l 0 p Hl) as [[E _]|[_ E]]; [rewrite E; ring|now elim E; apply H2].
  - intros p Hp. destruct (seen_val l 0 p Hl) as [[_ E]|[E _]]; [now elim (H1 p Hp)|]. rewrite E. unfold sgnC. rewrite Z.add_0_r, <- Z.negb_odd, Ho. reflexivity.
Qed.
(* against newt.pg2Multi.qmoment *)
Theorem C67_against_qmoment : forall l m a q, (1 <= m <= l)%Z -> (forall p, In p a -> ~ at_origin p) -> qmoment l m a = Ok q -> o_computeMoments l m a = Ok (sgnC (l + m) * q).
Proof.
  intros l m a q Hm Ha E. rewrite C67_sign_for_positive_m by exact Hm. rewrite C08_qmoment_single in E by (try lia; assumption). injection E as <-. reflexivity.
Qed.
(* a single point at (1, 0, 1): computeMoments(1, 0, .) is minus q_10, which is not zero *)
Theorem C67_wrong_sign_case : exists q, q <> RtoC 0 /\ inner_moment (mkpt 1 (1, 0, 1)%R :: nil) 1 0 = q /\ o_computeMoments 1 0 (mkpt 1 (1, 0, 1)%R :: nil) = Ok (- q).
Proof.
  exists (inner_moment (mkpt 1 (1, 0, 1)%R :: nil) 1 0). split; [|split; [reflexivity|]].
  - unfold inner_moment. cbn [lsum pm pp rsolid]. assert (S10 : solid 1 0 1 0 1 = RtoC 1) by apply solid_10.
    rewrite S10. assert (N : (0 < nrm 1 0)%R).
    { unfold nrm. apply sqrt_lt_R0. apply Rdiv_lt_0_compat; [|assert (K := PI_RGT_0); lra]. assert (A := zfact_pos (1 + 0)). assert (B := zfact_pos (1 - 0)). apply Rmult_lt_0_compat; [apply Rmult_lt_0_compat; [lra|exact A]|exact B]. }
    intros E. apply (f_equal fst) in E. cbn in E. lra.
  - assert (H := C67_zonal 1 (mkpt 1 (1, 0, 1)%R :: nil) nil ltac:(lia) eq_refl). cbn [app] in H. rewrite H.
    + f_equal. unfold inner_moment at 1. cbn [lsum]. ring.
    + intros p [<-|[]]. cbn. lra.
    + intros p [].
Qed.
(* m outside 0..l *)
Theorem C67_bad_order : forall l m p a, (m < 0 \/ l < m)%Z -> o_computeMoments l m (p :: a) = Err ValueError.
Proof.
  intros l m p a H. assert (B : ((m <? 0)%Z || (l <? m)%Z)%bool = true) by (apply orb_true_iff; rewrite !Z.ltb_lt; exact H).
  unfold o_computeMoments, o_YLM. rewrite B. cbn [fold_left bind]. destruct (pp p) as [[x y] z]. cbn [bind].
  induction a as [|p' a IH]; [reflexivity|exact IH].
Qed.
(* the summary: one row for each 1 <= l <= maxL, 0 <= m <= l; the monopole is not among them *)
Theorem C67_summary : forall L a, exists out, o_computeMomentSummary L a = Ok out /\ (2 * length out = L * (L + 3))%nat /\
  forall l m q, In (l, m, q) out <-> (1 <= l <= Z.of_nat L)%Z /\ (0 <= m <= l)%Z /\ o_computeMoments l m a = Ok q.
Proof.
  intros L a. unfold o_computeMomentSummary. set (pairs := flat_map _ (seq 1 L)).
  assert (HP : forall l m, In (l, m) pairs <-> (1 <= l <= Z.of_nat L)%Z /\ (0 <= m <= l)%Z).
  { intros l m. unfold pairs. rewrite in_flat_map. split.
    - intros (k & Hk & H). apply in_map_iff in H. destruct H as (j & E & Hj). injection E as <- <-. apply in_seq in Hk, Hj. lia.
    - intros [H1 H2]. exists (Z.to_nat l). split; [apply in_seq; lia|]. apply in_map_iff. exists (Z.to_nat m). split; [f_equal; lia|apply in_seq; lia]. }
  assert (HL : (2 * length pairs = L * (L + 3))%nat).
  { unfold pairs. clear. induction L as [|L IH]; [reflexivity|]. rewrite seq_S, flat_map_app, app_length. cbn [flat_map]. rewrite app_nil_r, map_length, seq_length. cbn [plus]. lia. }
  assert (F : forall ps acc, (forall l m, In (l, m) ps -> (0 <= m <= l)%Z) ->
    fold_left (fun acc lm => do output <- acc; do q <- o_computeMoments (fst lm) (snd lm) a; Ok (output ++ (fst lm, snd lm, q) :: nil)) ps (Ok acc)
    = Ok (acc ++ map (fun lm => (fst lm, snd lm, inner_moment (map seen a) (fst lm) (snd lm))) ps)).
  { induction ps as [|[l m] ps IH]; intros acc Hps; [cbn; now rewrite app_nil_r|]. cbn [fold_left bind fst snd map]. rewrite o_seen by (apply Hps; now left). cbn [bind]. rewrite IH by (intros; apply Hps; now right). now rewrite <- app_assoc. }
  rewrite F by (intros l m H; now apply HP in H). cbn [app]. eexists. split; [reflexivity|]. rewrite map_length. split; [exact HL|].
  intros l m q. rewrite in_map_iff. split.
  - intros ([l' m'] & E & H). cbn [fst snd] in E. injection E as <- <- <-. apply HP in H. split; [tauto|]. split; [tauto|]. apply o_seen. lia.
  - intros (H1 & H2 & E). rewrite o_seen in E by exact H2. injection E as <-. exists (l, m). split; [reflexivity|]. now apply HP.
Qed.
Print Assumptions C67_summary.
