(* The truncated multipole energy of point masses and its derivatives, and their limits (C46). *)
From Coq Require Import Reals Lra Lia ZArith List.
From Verif Require Import Props_Multipole Props_Torque Addition Legendre TransRecProofs RotationsProofs2 RotSpec GlibProofs NewtonSpec.
From Verif Require Import Cplx.
Open Scope C_scope.

Lemma lsr_ext {A} (f g : A -> R) l : (forall x, In x l -> f x = g x) -> lsr f l = lsr g l.
Proof. induction l as [|x l IH]; intros H; [reflexivity|]. cbn. rewrite H by now left. f_equal. apply IH. intros; apply H; now right. Qed.
Lemma lsum_RtoC {A} (f : A -> R) l : lsum (fun x => RtoC (f x)) l = RtoC (lsr f l).
Proof. induction l as [|x l IH]; [reflexivity|]. unfold lsum, lsr in *. cbn [fold_right] in *. rewrite IH. now rewrite <- RtoC_plus. Qed.
Lemma lsr_scal {A} c (f : A -> R) l : lsr (fun x => c * f x)%R l = (c * lsr f l)%R.
Proof. induction l as [|x l IH]; cbn; [ring|]. fold (lsr (fun x => c * f x)%R l). rewrite IH. fold (lsr f l). ring. Qed.

Lemma zsum_lsum {A} a b (f : Z -> A -> C) (l : list A) : zsum a b (fun k => lsum (fun x => f k x) l) = lsum (fun x => zsum a b (fun k => f k x)) l.
Proof. symmetry. apply (lsum_zsum a b f). Qed.
(* the pair term *)
Definition rterm (v V : vec) (l : nat) : R := (HL (vdot v V) (vsq v * vsq V) l * (/ vsq V) ^ l)%R.
Lemma vnorm_vsq v : vnorm v = sqrt (vsq v).
Proof. destruct v as [[x y] z]. unfold vnorm, vsq, vdot. f_equal. ring. Qed.
Lemma vsq_nonneg v : (0 <= vsq v)%R.
Proof. destruct v as [[x y] z]. unfold vsq, vdot. nra. Qed.
Lemma vnorm_sq v : (vnorm v * vnorm v = vsq v)%R.
Proof. rewrite vnorm_vsq. apply sqrt_sqrt, vsq_nonneg. Qed.
Lemma vnorm_ge0 v : (0 <= vnorm v)%R.
Proof. rewrite vnorm_vsq. apply sqrt_pos. Qed.
Lemma vsq_pos v : vnorm v <> 0%R -> (0 < vsq v)%R.
Proof. intros H. rewrite <- vnorm_sq. assert (Hn := vnorm_ge0 v). nra. Qed.
Lemma pair_l l v V : (0 <= l)%Z -> vnorm V <> 0%R ->
  zsum (- l) (l + 1) (fun m => rsolid l m v * isolid l m V / RtoC (2 * IZR l + 1)) = RtoC (rterm v V (Z.to_nat l) / vnorm V / (4 * PI)).
Proof.
  intros Hl HV. assert (Hp := PI_RGT_0). assert (Ho : (2 * IZR l + 1 <> 0)%R) by (apply IZR_le in Hl; lra).
  set (N := (vnorm V ^ Z.to_nat (2 * l + 1))%R). assert (HN : N <> 0%R) by now apply pow_nonzero.
  rewrite (zsum_ext _ _ _ (fun m => rsolid l m v * Cconj (rsolid l m V) * RtoC (/ (N * (2 * IZR l + 1))))).
  - rewrite zsum_scal_r, addition, <- RtoC_mult by assumption. f_equal. unfold rterm.
    assert (E : ((/ vsq V) ^ Z.to_nat l / vnorm V = / N)%R).
    { unfold N. replace (Z.to_nat (2 * l + 1)) with (S (Z.to_nat l + Z.to_nat l)) by lia. rewrite <- vnorm_sq, pow_inv. cbn [pow]. rewrite Rpow_mult_distr, pow_add.
      field. split; [now apply pow_nonzero|assumption]. }
    set (h := HL _ _ _). unfold Rdiv in *. rewrite <- (Rmult_assoc (/ vsq V ^ _)) || idtac.
    transitivity (h * / N / (4 * PI))%R; [field; repeat split; lra || assumption|]. rewrite <- E. unfold Rdiv. ring.
  - intros m Hm. unfold isolid. fold N. rewrite RtoC_inv, RtoC_mult. 2:{ now apply Rmult_integral_contrapositive_currified. }
    field. split; now apply RtoC_neq0.
Qed.
Lemma vnorm_origin p : at_origin p <-> vnorm (pp p) = 0%R.
Proof. unfold at_origin. symmetry. apply vnorm_0_iff. Qed.

Definition wsum (c : R) (L : nat) (P S : list pt) : R :=
  lsr (fun p => lsr (fun s => (c * pm p * pm s * (sum_n (rterm (pp p) (pp s)) L / vnorm (pp s)))%R) S) P.
Lemma zsum_sum_n (f : nat -> R) (L : nat) : zsum 0 (Z.of_nat L + 1) (fun l => RtoC (f (Z.to_nat l))) = RtoC (sum_n f L).
Proof.
  induction L as [|L IH].
  - rewrite sum_O. change (Z.of_nat 0 + 1)%Z with 1%Z. rewrite zsum_first, zsum_empty by lia. change (Z.to_nat 0) with O. ring.
  - rewrite sum_Sn. replace (Z.of_nat (S L) + 1)%Z with (Z.of_nat L + 1 + 1)%Z by lia. rewrite zsum_last by lia. rewrite IH.
    replace (Z.to_nat (Z.of_nat L + 1)) with (S L) by lia. now rewrite <- RtoC_plus.
Qed.
Lemma work_wsum c (L : nat) P S : (forall s, In s S -> ~ at_origin s) ->
  work c (Z.of_nat L) (inner_moment P) (outer_moment S) = RtoC (wsum c L P S).
Proof.
  intros HS. unfold work, pairing, wsum. rewrite <- lsum_RtoC.
  rewrite (zsum_ext _ _ _ (fun l => lsum (fun p => lsum (fun s => RtoC (pm p * pm s * (rterm (pp p) (pp s) (Z.to_nat l) / vnorm (pp s) / (4 * PI)))) S) P)).
  - rewrite zsum_lsum, <- lsum_scal. apply lsum_ext. intros p Hp. rewrite zsum_lsum, <- lsum_scal, <- lsum_RtoC. apply lsum_ext. intros s Hs.
    rewrite (zsum_ext _ _ _ (fun l => RtoC (pm p * pm s / (4 * PI) / vnorm (pp s)) * RtoC (rterm (pp p) (pp s) (Z.to_nat l)))).
    + rewrite zsum_scal_l, zsum_sum_n, <- !RtoC_mult. f_equal. assert (H := HS s Hs). rewrite vnorm_origin in H. assert (Hpi := PI_RGT_0). field; split; exact H || lra.
    + intros l Hl. rewrite <- RtoC_mult. f_equal. assert (H := HS s Hs). rewrite vnorm_origin in H. assert (Hpi := PI_RGT_0). field; split; exact H || lra.
  - intros l Hl. unfold inner_moment, outer_moment.
    rewrite (zsum_ext _ _ _ (fun m => lsum (fun p => lsum (fun s => RtoC (pm p * pm s) * (rsolid l m (pp p) * isolid l m (pp s) / RtoC (2 * IZR l + 1))) S) P)).
    + rewrite zsum_lsum. apply lsum_ext. intros p Hp. rewrite zsum_lsum. apply lsum_ext. intros s Hs. rewrite zsum_scal_l, pair_l, <- RtoC_mult; [reflexivity|lia|].
      rewrite <- vnorm_origin. now apply HS.
    + intros m Hm. unfold Cdiv. rewrite <- lsum_scal_r, <- lsum_scal_r. apply lsum_ext. intros p Hp. rewrite <- lsum_scal, <- lsum_scal_r. apply lsum_ext. intros s Hs.
      rewrite RtoC_mult. ring.
Qed.

(* ---- limits of the pair sums ---- *)
Open Scope R_scope.
Lemma is_pseries_lim (a : nat -> R) x l : is_pseries a x l -> is_lim_seq (fun N => sum_n (fun n => a n * x ^ n) N) l.
Proof.
  intros H. unfold is_pseries, is_series in H.
  apply (is_lim_seq_ext (fun N => sum_n (fun k => scal (pow_n x k) (a k)) N)).
  - intros N. apply sum_n_ext. intros n. rewrite pow_n_pow. unfold scal; cbn; unfold mult; cbn. apply Rmult_comm.
  - exact H.
Qed.
Lemma lim_scal (u : nat -> R) (a l : R) : is_lim_seq u l -> is_lim_seq (fun n => u n * a) (l * a).
Proof. intros H. apply (is_lim_seq_scal_r u a l H). Qed.
Section Pair.
Variables (v V : vec).
Hypothesis (Hlt : vnorm v < vnorm V).
Let k := vnorm v * vnorm V.
Let t := / vsq V.
Lemma HV0 : vnorm V <> 0. Proof. assert (H := vnorm_ge0 v). lra. Qed.
Lemma kk : k * k = vsq v * vsq V.
Proof. unfold k. rewrite <- !vnorm_sq. ring. Qed.
Lemma k_ge0 : 0 <= k.
Proof. apply Rmult_le_pos; apply vnorm_ge0. Qed.
Lemma cauchy : Rabs (vdot v V) <= k.
Proof.
  apply Rsqr_incr_0; [|apply Rabs_pos|apply k_ge0]. rewrite <- Rsqr_abs. unfold Rsqr. rewrite kk.
  destruct v as [[x y] z], V as [[x' y'] z']. unfold vsq, vdot.
  assert (H1 := pow2_ge_0 (x * y' - y * x')). assert (H2 := pow2_ge_0 (x * z' - z * x')). assert (H3 := pow2_ge_0 (y * z' - z * y')). nra.
Qed.
Lemma tk : Rabs t * k < 1.
Proof.
  assert (P := vsq_pos V HV0). unfold t. rewrite Rabs_pos_eq by (apply Rlt_le, Rinv_0_lt_compat, P).
  apply (Rmult_lt_reg_l (vsq V)); [exact P|]. rewrite <- Rmult_assoc, Rinv_r, Rmult_1_l, Rmult_1_r by lra.
  rewrite <- vnorm_sq. unfold k. assert (H := vnorm_ge0 v). apply Rmult_lt_compat_r; lra.
Qed.
Lemma disc_dist : Legendre.disc (vdot v V) k t = vsq (vsub V v) / vsq V.
Proof.
  unfold Legendre.disc. rewrite kk. assert (P := vsq_pos V HV0). unfold t.
  transitivity ((vsq V - 2 * vdot v V + vsq v) / vsq V); [field; lra|]. f_equal.
  destruct v as [[x y] z], V as [[x' y'] z']. unfold vsq, vdot, vsub. ring.
Qed.
Lemma apart_pos : 0 < vnorm (vsub V v).
Proof.
  assert (P := disc_pos (vdot v V) k cauchy t tk). rewrite disc_dist in P. assert (PV := vsq_pos V HV0).
  assert (0 < vsq (vsub V v)). { replace (vsq (vsub V v)) with (vsq (vsub V v) / vsq V * vsq V) by (field; lra). now apply Rmult_lt_0_compat. }
  rewrite vnorm_vsq. now apply sqrt_lt_R0.
Qed.
Lemma sqrt_disc : sqrt (Legendre.disc (vdot v V) k t) = vnorm (vsub V v) / vnorm V.
Proof. rewrite disc_dist, sqrt_div_alt by (apply vsq_pos, HV0). now rewrite <- !vnorm_vsq. Qed.
Lemma lim_pot : is_lim_seq (fun N => sum_n (rterm v V) N / vnorm V) (/ vnorm (vsub V v)).
Proof.
  assert (A := apart_pos). assert (B := HV0). 
  replace (/ vnorm (vsub V v)) with (vnorm V / vnorm (vsub V v) * / vnorm V) by (field; split; try exact B; apply Rgt_not_eq; exact A).
  apply (lim_scal (fun N => sum_n (rterm v V) N) (/ vnorm V) (vnorm V / vnorm (vsub V v))).
  assert (E := PSeries_correct _ _ (ex_a (vdot v V) k k_ge0 cauchy t tk)). rewrite (gen_f _ _ k_ge0 cauchy t tk), sqrt_disc in E.
  apply is_pseries_lim in E. rewrite kk in E. unfold rterm. fold t.
  replace (vnorm V / vnorm (vsub V v)) with (/ (vnorm (vsub V v) / vnorm V)) by (field; split; try exact B; apply Rgt_not_eq; exact A). exact E.
Qed.
Definition F_val : R := (vnorm V / vnorm (vsub V v)) ^ 3.
Lemma F_ok : PSeries (fun n => HG (vdot v V) (k * k) (S n)) t = F_val.
Proof.
  assert (E := gen_F (vdot v V) k k_ge0 cauchy t tk). rewrite (gen_f _ _ k_ge0 cauchy t tk), sqrt_disc, disc_dist, <- !vnorm_sq in E.
  assert (A := apart_pos). assert (B := HV0). unfold F_val. set (p := PSeries _ _) in *. set (a := vnorm (vsub V v)) in *. set (b := vnorm V) in *. clearbody a b p.
  apply (Rmult_eq_reg_l (a * a / (b * b))).
  - rewrite E. field. split; try exact B; apply Rgt_not_eq; exact A.
  - apply Rmult_integral_contrapositive_currified; [nra|]. apply Rinv_neq_0_compat. nra.
Qed.
Lemma F_series : is_pseries (fun n => HG (vdot v V) (k * k) (S n)) t F_val.
Proof. rewrite <- F_ok. apply PSeries_correct. apply ex_b; [apply k_ge0|apply cauchy|apply tk]. Qed.
Lemma G_lim : is_lim_seq (fun N => sum_n (fun n => HG (vdot v V) (vsq v * vsq V) n * t ^ n) N) (t * F_val).
Proof.
  rewrite <- kk. apply is_pseries_lim. assert (H := is_pseries_incr_1 _ _ _ F_series).
  eapply is_pseries_ext; [|exact H]. intros [|n]; reflexivity.
Qed.
Lemma G_lim' : is_lim_seq (fun N => sum_n (fun n => HG (vdot v V) (vsq v * vsq V) (pred n) * t ^ n) N) (t * (t * F_val)).
Proof.
  rewrite <- kk. apply is_pseries_lim. assert (H := is_pseries_incr_1 _ _ _ (is_pseries_incr_1 _ _ _ F_series)).
  eapply is_pseries_ext; [|exact H]. intros [|[|n]]; reflexivity.
Qed.
(* velocity w of the inner point *)
Definition dterm (w : vec) (n : nat) : R :=
  (HG (vdot v V) (vsq v * vsq V) n * vdot w V - / 2 * HG (vdot v V) (vsq v * vsq V) (pred n) * (2 * vdot v w * vsq V)) * (/ vsq V) ^ n.
Lemma lim_der w : is_lim_seq (fun N => sum_n (dterm w) N / vnorm V) (vdot w (vsub V v) / vnorm (vsub V v) ^ 3).
Proof.
  assert (A := apart_pos). assert (B := HV0). assert (C := vsq_pos V HV0).
  apply (is_lim_seq_ext (fun N => (sum_n (fun n => HG (vdot v V) (vsq v * vsq V) n * t ^ n) N * vdot w V
      - sum_n (fun n => HG (vdot v V) (vsq v * vsq V) (pred n) * t ^ n) N * (vdot v w * vsq V)) * / vnorm V)).
  - intros N. unfold Rdiv. f_equal. induction N as [|N IH].
    + rewrite !sum_O. unfold dterm. fold t. field.
    + rewrite !sum_Sn. unfold plus; cbn -[sum_n dterm HG pred pow]. rewrite <- IH. unfold dterm. fold t. field.
  - replace (vdot w (vsub V v) / vnorm (vsub V v) ^ 3) with ((t * F_val * vdot w V - t * (t * F_val) * (vdot v w * vsq V)) * / vnorm V).
    + apply (lim_scal _ (/ vnorm V) (t * F_val * vdot w V - t * (t * F_val) * (vdot v w * vsq V))).
      apply (is_lim_seq_minus' _ _ (t * F_val * vdot w V) (t * (t * F_val) * (vdot v w * vsq V))).
      * apply (lim_scal _ (vdot w V) (t * F_val)). apply G_lim.
      * apply (lim_scal _ (vdot v w * vsq V) (t * (t * F_val))). apply G_lim'.
    + unfold F_val. replace (vdot w (vsub V v)) with (vdot w V - vdot v w) by (destruct v as [[? ?] ?], V as [[? ?] ?], w as [[? ?] ?]; unfold vdot, vsub; ring).
      unfold t. rewrite <- vnorm_sq. field. split; try exact B; apply Rgt_not_eq; exact A.
Qed.
End Pair.

(* ---- sums over the points ---- *)
Lemma inside_origin P S : inside P S -> forall s, In s S -> ~ at_origin s.
Proof. intros [H _] s Hs. rewrite vnorm_origin. specialize (H s Hs). lra. Qed.
Lemma lim_lsr {A} (u : A -> nat -> R) (a : A -> R) l : (forall x, In x l -> is_lim_seq (u x) (a x)) ->
  is_lim_seq (fun n => lsr (fun x => u x n) l) (lsr a l).
Proof.
  induction l as [|x l IH]; intros H; [apply is_lim_seq_const|]. cbn. apply (is_lim_seq_plus' (u x) (fun n => lsr (fun x => u x n) l)).
  - apply H. now left.
  - apply IH. intros; apply H; now right.
Qed.
Lemma der_lsr {A} (u : A -> R -> R) (a : A -> R) l (t : R) : (forall x, In x l -> is_derive (u x) t (a x)) ->
  is_derive (fun n => lsr (fun x => u x n) l) t (lsr a l).
Proof.
  induction l as [|x l IH]; intros H; [exact (is_derive_const (K := R_AbsRing) (V := R_NormedModule) 0 t)|]. cbn. apply (is_derive_plus (u x) (fun n => lsr (fun x => u x n) l)).
  - apply H. now left.
  - apply IH. intros; apply H; now right.
Qed.
Lemma der_sum_n (u : nat -> R -> R) (a : nat -> R) N (t : R) : (forall n, is_derive (u n) t (a n)) -> is_derive (fun x => sum_n (fun n => u n x) N) t (sum_n a N).
Proof.
  intros H. induction N as [|N IH].
  - rewrite sum_O. apply (is_derive_ext (u O)); [intros x; now rewrite sum_O|]. apply H.
  - rewrite sum_Sn. apply (is_derive_ext (fun x => sum_n (fun n => u n x) N + u (S N) x)); [intros x; now rewrite sum_Sn|]. apply (is_derive_plus (fun x => sum_n (fun n => u n x) N) (u (S N))); [exact IH|apply H].
Qed.
Definition carried (g : vec -> vec) (P : list pt) : list pt := map (fun p => mkpt (pm p) (g (pp p))) P.
Definition dsum (c : R) (L : nat) (P S : list pt) (g w : vec -> vec) : R :=
  lsr (fun p => lsr (fun s => c * pm p * pm s * (sum_n (dterm (g (pp p)) (pp s) (w (pp p))) L / vnorm (pp s))) S) P.
Definition moves (g : R -> vec -> vec) (x : R) (w : vec -> vec) : Prop := forall v,
  (forall V, is_derive (fun t => vdot (g t v) V) x (vdot (w v) V)) /\ is_derive (fun t => vsq (g t v)) x (2 * vdot (g x v) (w v)).
Lemma lsr_map {A B} (h : A -> B) (f : B -> R) l : lsr f (map h l) = lsr (fun x => f (h x)) l.
Proof. unfold lsr. induction l; cbn; [reflexivity|]. now rewrite IHl. Qed.
Lemma wsum_der c L P S g x w : moves g x w -> is_derive (fun t => wsum c L (carried (g t) P) S) x (dsum c L P S (g x) w).
Proof.
  intros M. unfold wsum, carried. 
  apply (is_derive_ext (fun t => lsr (fun p => lsr (fun s => c * pm p * pm s * (sum_n (rterm (g t (pp p)) (pp s)) L / vnorm (pp s))) S) P)); [intros t; now rewrite lsr_map|].
  apply (der_lsr (fun p t => lsr (fun s => c * pm p * pm s * (sum_n (rterm (g t (pp p)) (pp s)) L / vnorm (pp s))) S)). intros p _.
  apply (der_lsr (fun s t => c * pm p * pm s * (sum_n (rterm (g t (pp p)) (pp s)) L / vnorm (pp s)))). intros s _.
  apply is_derive_scal. unfold Rdiv. 
  apply (is_derive_ext (fun t => / vnorm (pp s) * sum_n (rterm (g t (pp p)) (pp s)) L)); [intros; apply Rmult_comm|].
  rewrite (Rmult_comm (sum_n _ _)). apply is_derive_scal. apply (der_sum_n (fun n t => rterm (g t (pp p)) (pp s) n)). intros n. unfold rterm, dterm.
  destruct (M (pp p)) as [M1 M2].
  apply (is_derive_ext (fun t => (/ vsq (pp s)) ^ n * HL (vdot (g t (pp p)) (pp s)) (vsq (g t (pp p)) * vsq (pp s)) n)); [intros; apply Rmult_comm|].
  match goal with |- is_derive _ _ (?u * ?k) => rewrite (Rmult_comm u k) end. apply is_derive_scal.
  apply (HL_der (fun t => vdot (g t (pp p)) (pp s)) (fun t => vsq (g t (pp p)) * vsq (pp s))); [apply M1|].
  apply (is_derive_ext (fun t => vsq (pp s) * vsq (g t (pp p)))); [intros; apply Rmult_comm|].
  match goal with |- is_derive _ _ (?u * ?k) => rewrite (Rmult_comm u k) end. apply is_derive_scal. exact M2.
Qed.
Lemma dsum_lim c P S g w : inside (carried g P) S ->
  is_lim_seq (fun L => dsum c L P S g w)
    (lsr (fun p => lsr (fun s => c * pm p * pm s * (vdot (w (pp p)) (vsub (pp s) (g (pp p))) / vnorm (vsub (pp s) (g (pp p))) ^ 3)) S) P).
Proof.
  intros H. unfold dsum. apply (lim_lsr (fun p L => lsr (fun s => c * pm p * pm s * (sum_n (dterm (g (pp p)) (pp s) (w (pp p))) L / vnorm (pp s))) S)). intros p Hp.
  apply (lim_lsr (fun s L => c * pm p * pm s * (sum_n (dterm (g (pp p)) (pp s) (w (pp p))) L / vnorm (pp s)))). intros s Hs.
  apply (is_lim_seq_ext (fun L => sum_n (dterm (g (pp p)) (pp s) (w (pp p))) L / vnorm (pp s) * (c * pm p * pm s))); [intros; apply Rmult_comm|].
  rewrite (Rmult_comm (c * pm p * pm s)). apply lim_scal. apply lim_der.
  apply (proj2 H (mkpt (pm p) (g (pp p))) s); [|exact Hs]. unfold carried. now apply (in_map (fun p => mkpt (pm p) (g (pp p)))).
Qed.
(* the total work rate equals that of the forces of point_matrix_gravity *)
Lemma vdot_vS {A} w (f : A -> vec) l : vdot w (vS f l) = lsr (fun x => vdot w (f x)) l.
Proof.
  induction l as [|x l IH]; [destruct w as [[w1 w2] w3]; unfold vS, vdot, v0; cbn [fold_right lsr]; ring|]. change (lsr (fun x => vdot w (f x)) (x :: l)) with (vdot w (f x) + lsr (fun x => vdot w (f x)) l). rewrite <- IH.
  change (vS f (x :: l)) with (vadd (f x) (vS f l)). destruct w as [[w1 w2] w3]. destruct (f x) as [[a1 a2] a3].
  destruct (vS f l) as [[b1 b2] b3]. unfold vdot, vadd. ring.
Qed.
Lemma power_pf w g P S :
  lsr (fun p => lsr (fun s => BIG_G * pm p * pm s * (vdot (w (pp p)) (vsub (pp s) (g (pp p))) / vnorm (vsub (pp s) (g (pp p))) ^ 3)) S) P
  = lsr (fun p => vdot (w (pp p)) (vS (fun s => pf wG (mkpt (pm p) (g (pp p))) s) S)) P.
Proof.
  apply lsr_ext. intros p _. rewrite vdot_vS. apply lsr_ext. intros s _. unfold pf, wG, GlibProofs.dist. cbn [pm pp].
  set (r := vnorm _). destruct (w (pp p)) as [[w1 w2] w3]. destruct (vsub (pp s) (g (pp p))) as [[d1 d2] d3]. unfold vscal, vdot, Rdiv. ring.
Qed.
Lemma totF_at g P S : totF wG (carried g P) S = vS (fun p => vS (fun s => pf wG (mkpt (pm p) (g (pp p))) s) S) P.
Proof. unfold totF, carried. unfold vS at 1 3. induction P; cbn; [reflexivity|]. now rewrite IHP. Qed.
Lemma totT_at g P S : totT wG (carried g P) S = vS (fun p => vcross (g (pp p)) (vS (fun s => pf wG (mkpt (pm p) (g (pp p))) s) S)) P.
Proof. unfold totT, carried. unfold vS at 1 3. induction P; cbn; [reflexivity|]. now rewrite IHP. Qed.
Lemma inside_apart P S : inside P S -> coincide P S = false.
Proof.
  intros H. apply coincide_false. intros p q Hp Hq E. assert (H1 := proj2 H p q Hp Hq). rewrite E in H1. lra.
Qed.
Lemma gravity_inside P S : inside P S -> point_matrix_gravity (Rows P) (Rows S) = Ok (totF wG P S, totT wG P S).
Proof. intros H. rewrite gravity_spec. cbn [rows]. now rewrite inside_apart. Qed.
(* potential *)
Lemma wsum_lim c P S : inside P S -> is_lim_seq (fun L => wsum c L P S) (newton_work c P S).
Proof.
  intros H. unfold wsum, newton_work. apply (lim_lsr (fun p L => lsr (fun s => c * pm p * pm s * (sum_n (rterm (pp p) (pp s)) L / vnorm (pp s))) S)). intros p Hp.
  apply (lim_lsr (fun s L => c * pm p * pm s * (sum_n (rterm (pp p) (pp s)) L / vnorm (pp s)))). intros s Hs.
  apply (is_lim_seq_ext (fun L => sum_n (rterm (pp p) (pp s)) L / vnorm (pp s) * (c * pm p * pm s))); [intros; apply Rmult_comm|].
  unfold Rdiv at 2. rewrite (Rmult_comm (c * pm p * pm s)). apply lim_scal. apply lim_pot. now apply (proj2 H).
Qed.
