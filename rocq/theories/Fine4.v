(* Towards C78: the regular solid harmonics do not change faster than 2 l sqrt((2 l + 1) / 4 pi) r^(l-1) in the ball of radius r. *)
From Coq Require Import Reals Lra Lia List ZArith.
From Coquelicot Require Import Coquelicot.
From Verif Require Import MultipoleLib MultipoleProofs MathSpec Tri Solid Glib GlibSpec GlibProofs NewtonSpec Newton MomentSpec Pg2MultiProofs TransSpec Translations TranslationsProofs CDeriv Addition Irreg Irreg2 Props_Series2 FineSpec Fine3.
From Verif Require Import Cplx.
Open Scope R_scope.

Lemma eq_der (f : R -> R) (x d d' : R) : is_derive f x d -> d = d' -> is_derive f x d'. Proof. intros H <-. exact H. Qed.
Definition scale (l : Z) : R := sqrt ((2 * IZR l + 1) / (4 * PI)).
Lemma nrm_wfac l m : (0 <= l)%Z -> nrm l m = scale l * sqrt (wfac l m).
Proof.
  intros Hl. assert (HPI := PI_RGT_0). assert (Q : 0 <= IZR l) by now apply (IZR_le 0). unfold nrm, scale, wfac. rewrite <- sqrt_mult_alt by (left; apply Rdiv_lt_0_compat; lra). f_equal. unfold Rdiv. ring.
Qed.
Lemma Av_le e : Cmod (Av e) <= vnorm e / 2.
Proof.
  destruct e as [[x y] z]. unfold Av. rewrite vnorm_xyz. replace (- (RtoC x - Ci * RtoC y) / RtoC 2)%C with ((- x / 2, y / 2)%R : C). 2:{ unfold Ci, RtoC, Cdiv, Cmult, Cminus, Cplus, Copp, Cinv. cbn. f_equal; field. }
  unfold Cmod. cbn [fst snd]. apply Rle_trans with (sqrt ((x ^ 2 + y ^ 2 + z ^ 2) / 4)).
  - apply sqrt_le_1_alt. assert (A := pow2_ge_0 z). lra.
  - right. unfold Rdiv. rewrite sqrt_mult_alt by (assert (A := pow2_ge_0 x); assert (B := pow2_ge_0 y); assert (D := pow2_ge_0 z); lra). f_equal. replace (/ 4) with ((/ 2) ^ 2) by field. rewrite sqrt_pow2; lra.
Qed.
Lemma Bv_le e : Cmod (Bv e) <= vnorm e / 2.
Proof.
  replace (Cmod (Bv e)) with (Cmod (Av e)); [apply Av_le|]. destruct e as [[x y] z]. unfold Av, Bv.
  replace (- (RtoC x - Ci * RtoC y) / RtoC 2)%C with ((- x / 2, y / 2)%R : C) by (unfold Ci, RtoC, Cdiv, Cmult, Cminus, Cplus, Copp, Cinv; cbn; f_equal; field).
  replace ((RtoC x + Ci * RtoC y) / RtoC 2)%C with ((x / 2, y / 2)%R : C) by (unfold Ci, RtoC, Cdiv, Cmult, Cminus, Cplus, Copp, Cinv; cbn; f_equal; field).
  unfold Cmod. cbn [fst snd]. f_equal. field.
Qed.
Lemma zv_le e : Cmod (zv e) <= vnorm e.
Proof.
  destruct e as [[x y] z]. unfold zv. rewrite Cmod_R, vnorm_xyz. rewrite <- sqrt_Rsqr_abs. apply sqrt_le_1_alt. unfold Rsqr. assert (A := pow2_ge_0 x). assert (B := pow2_ge_0 y). lra.
Qed.
Lemma sqrt_prod_le a b : 0 <= a -> 0 <= b -> sqrt (a * b) <= (a + b) / 2.
Proof. intros Ha Hb. rewrite <- (sqrt_pow2 ((a + b) / 2)) by lra. apply sqrt_le_1_alt. assert (A := pow2_ge_0 (a - b)). nra. Qed.
Lemma S_neighbour l m l' m' p a b r : (0 <= l)%Z -> (Z.abs m' <= l')%Z -> 0 <= a -> 0 <= b -> wfac l m = a * b * wfac l' m' -> vnorm p <= r ->
  nrm l m * Cmod (S_ l' m' p) <= scale l * ((a + b) / 2) * r ^ Z.to_nat l'.
Proof.
  intros Hl Hm Ha Hb E Hp. rewrite nrm_wfac by exact Hl. assert (W := wfac_pos l' m'). rewrite E, sqrt_mult_alt by (now apply Rmult_le_pos). assert (SB := S_bound l' m' p Hm). assert (SC : 0 <= scale l) by apply sqrt_pos. assert (PQ := sqrt_prod_le a b Ha Hb).
  assert (PW : vnorm p ^ Z.to_nat l' <= r ^ Z.to_nat l') by (apply pow_incr; split; [apply vn_ge0|exact Hp]). assert (C0 : 0 <= sqrt (wfac l' m') * Cmod (S_ l' m' p)) by (apply Rmult_le_pos; [apply sqrt_pos|apply Cmod_ge_0]).
  replace (scale l * (sqrt (a * b) * sqrt (wfac l' m')) * Cmod (S_ l' m' p)) with (scale l * sqrt (a * b) * (sqrt (wfac l' m') * Cmod (S_ l' m' p))) by ring.
  apply Rmult_le_compat; [apply Rmult_le_pos; [exact SC|apply sqrt_pos]|exact C0|now apply Rmult_le_compat_l|lra].
Qed.
Definition dS (l m : Z) (e p : vec) : C := (Av e * S_ (l - 1) (m - 1) p + zv e * S_ (l - 1) m p + Bv e * S_ (l - 1) (m + 1) p)%C.
Lemma grad_bound l m e p r : (1 <= l)%Z -> (Z.abs m <= l)%Z -> vnorm p <= r -> nrm l m * Cmod (dS l m e p) <= 2 * IZR l * scale l * r ^ Z.to_nat (l - 1) * vnorm e.
Proof.
  intros Hl Hm Hp. assert (NP : 0 <= nrm l m) by apply sqrt_pos. assert (E0 := vn_ge0 e). assert (Hr : 0 <= r) by (assert (Q := vn_ge0 p); lra). assert (R0 : 0 <= r ^ Z.to_nat (l - 1)) by now apply pow_le. assert (SC : 0 <= scale l) by apply sqrt_pos.
  assert (M1 : IZR (- l) <= IZR m <= IZR l) by (split; apply IZR_le; lia). rewrite opp_IZR in M1. assert (L1 : 1 <= IZR l) by now apply (IZR_le 1). set (X := scale l * r ^ Z.to_nat (l - 1)). assert (X0 : 0 <= X) by now apply Rmult_le_pos.
  assert (T1 : nrm l m * Cmod (S_ (l - 1) (m - 1) p) <= X * (IZR l + IZR m)).
  { destruct (Z.le_gt_cases (Z.abs (m - 1)) (l - 1)) as [K|K].
    - assert (Q : IZR 2 <= IZR (l + m)) by (apply IZR_le; lia). rewrite plus_IZR in Q. apply Rle_trans with (scale l * ((IZR (l + m) + IZR (l + m - 1)) / 2) * r ^ Z.to_nat (l - 1)).
      + apply S_neighbour; [lia|exact K|apply (IZR_le 0); lia|apply (IZR_le 0); lia| |exact Hp]. unfold wfac. rewrite (zfact_rec (l + m)) by lia. rewrite (zfact_rec (l + m - 1)) by lia. replace (l + m - 1 - 1)%Z with (l - 1 + (m - 1))%Z by ring. replace (l - 1 - (m - 1))%Z with (l - m)%Z by ring. ring.
      + unfold X. replace (scale l * ((IZR (l + m) + IZR (l + m - 1)) / 2) * r ^ Z.to_nat (l - 1)) with (scale l * r ^ Z.to_nat (l - 1) * ((IZR (l + m) + IZR (l + m - 1)) / 2)) by ring. apply Rmult_le_compat_l; [exact X0|]. rewrite minus_IZR, plus_IZR. lra.
    - rewrite S_zero by lia. rewrite Cmod_0, Rmult_0_r. apply Rmult_le_pos; [exact X0|lra]. }
  assert (T2 : nrm l m * Cmod (S_ (l - 1) m p) <= X * IZR l).
  { destruct (Z.le_gt_cases (Z.abs m) (l - 1)) as [K|K].
    - apply Rle_trans with (scale l * ((IZR (l + m) + IZR (l - m)) / 2) * r ^ Z.to_nat (l - 1)).
      + apply S_neighbour; [lia|exact K|apply (IZR_le 0); lia|apply (IZR_le 0); lia| |exact Hp]. unfold wfac. rewrite (zfact_rec (l + m)), (zfact_rec (l - m)) by lia. replace (l + m - 1)%Z with (l - 1 + m)%Z by ring. replace (l - m - 1)%Z with (l - 1 - m)%Z by ring. ring.
      + right. unfold X. rewrite minus_IZR, plus_IZR. field.
    - rewrite S_zero by lia. rewrite Cmod_0, Rmult_0_r. apply Rmult_le_pos; [exact X0|lra]. }
  assert (T3 : nrm l m * Cmod (S_ (l - 1) (m + 1) p) <= X * (IZR l - IZR m)).
  { destruct (Z.le_gt_cases (Z.abs (m + 1)) (l - 1)) as [K|K].
    - assert (Q : IZR 2 <= IZR (l - m)) by (apply IZR_le; lia). rewrite minus_IZR in Q. apply Rle_trans with (scale l * ((IZR (l - m) + IZR (l - m - 1)) / 2) * r ^ Z.to_nat (l - 1)).
      + apply S_neighbour; [lia|exact K|apply (IZR_le 0); lia|apply (IZR_le 0); lia| |exact Hp]. unfold wfac. rewrite (zfact_rec (l - m)) by lia. rewrite (zfact_rec (l - m - 1)) by lia. replace (l - m - 1 - 1)%Z with (l - 1 - (m + 1))%Z by ring. replace (l - 1 + (m + 1))%Z with (l + m)%Z by ring. ring.
      + unfold X. replace (scale l * ((IZR (l - m) + IZR (l - m - 1)) / 2) * r ^ Z.to_nat (l - 1)) with (scale l * r ^ Z.to_nat (l - 1) * ((IZR (l - m) + IZR (l - m - 1)) / 2)) by ring. apply Rmult_le_compat_l; [exact X0|]. rewrite !minus_IZR. lra.
    - rewrite S_zero by lia. rewrite Cmod_0, Rmult_0_r. apply Rmult_le_pos; [exact X0|lra]. }
  unfold dS. assert (CA := Cmod_triangle (Av e * S_ (l - 1) (m - 1) p + zv e * S_ (l - 1) m p)%C (Bv e * S_ (l - 1) (m + 1) p)%C). assert (CB := Cmod_triangle (Av e * S_ (l - 1) (m - 1) p)%C (zv e * S_ (l - 1) m p)%C).
  rewrite !Cmod_mult in CA, CB. rewrite Cmod_mult in CB.
  set (s1 := Cmod (S_ (l - 1) (m - 1) p)) in *. set (s2 := Cmod (S_ (l - 1) m p)) in *. set (s3 := Cmod (S_ (l - 1) (m + 1) p)) in *.
  assert (N1 : 0 <= s1) by apply Cmod_ge_0. assert (N2 : 0 <= s2) by apply Cmod_ge_0. assert (N3 : 0 <= s3) by apply Cmod_ge_0.
  apply Rle_trans with (nrm l m * (vnorm e / 2 * s1 + vnorm e * s2 + vnorm e / 2 * s3)).
  - apply Rmult_le_compat_l; [exact NP|]. assert (A := Rmult_le_compat_r s1 _ _ N1 (Av_le e)). assert (B := Rmult_le_compat_r s2 _ _ N2 (zv_le e)). assert (D := Rmult_le_compat_r s3 _ _ N3 (Bv_le e)). lra.
  - replace (nrm l m * (vnorm e / 2 * s1 + vnorm e * s2 + vnorm e / 2 * s3)) with (vnorm e / 2 * (nrm l m * s1) + vnorm e * (nrm l m * s2) + vnorm e / 2 * (nrm l m * s3)) by ring.
    replace (2 * IZR l * scale l * r ^ Z.to_nat (l - 1) * vnorm e) with (vnorm e / 2 * (X * (IZR l + IZR m)) + vnorm e * (X * IZR l) + vnorm e / 2 * (X * (IZR l - IZR m))) by (unfold X; field).
    assert (A := Rmult_le_compat_l (vnorm e / 2) _ _ ltac:(lra) T1). assert (B := Rmult_le_compat_l (vnorm e) _ _ E0 T2). assert (D := Rmult_le_compat_l (vnorm e / 2) _ _ ltac:(lra) T3). lra.
Qed.
Definition phase (al be : R) (z : C) : R := al * Re z + be * Im z.
Lemma phase_le al be z : al ^ 2 + be ^ 2 = 1 -> Rabs (phase al be z) <= Cmod z.
Proof.
  intros T. unfold phase, Cmod, Re, Im. rewrite <- (sqrt_Rsqr_abs (al * fst z + be * snd z)). apply sqrt_le_1_alt. unfold Rsqr. assert (Q := pow2_ge_0 (al * snd z - be * fst z)). replace (fst z ^ 2 + snd z ^ 2) with ((al ^ 2 + be ^ 2) * (fst z ^ 2 + snd z ^ 2)) by (rewrite T; ring). replace ((al ^ 2 + be ^ 2) * (fst z ^ 2 + snd z ^ 2)) with ((al * fst z + be * snd z) * (al * fst z + be * snd z) + (al * snd z - be * fst z) ^ 2) by ring. lra.
Qed.
(* in the ball *)
Lemma solid_ball_lip l m r al be v w : al ^ 2 + be ^ 2 = 1 -> (1 <= l)%Z -> (Z.abs m <= l)%Z -> vnorm v <= r -> vnorm w <= r ->
  Rabs (phase al be (rsolid l m v) - phase al be (rsolid l m w)) <= 2 * IZR l * scale l * r ^ Z.to_nat (l - 1) * vnorm (vsub v w).
Proof.
  intros T Hl Hm Hv Hw. set (e := vsub v w). set (g := fun u => on_line w e u).
  set (h := fun u => phase al be (RtoC (nrm l m) * S_ l m (g u))%C). set (h' := fun u => phase al be (RtoC (nrm l m) * dS l m e (g u))%C).
  assert (D : forall u, is_derive h u (h' u)).
  { intros u. assert (G : goes g u e) by (apply (goes_line g u w e); reflexivity). destruct (cder_S l m g u e G) as (D1 & D2). fold (dS l m e (g u)) in D1, D2. unfold h, h', phase.
    apply (is_derive_ext (fun t => (al * nrm l m) * Re (S_ l m (g t)) + (be * nrm l m) * Im (S_ l m (g t)))).
    { intros t. destruct (S_ l m (g t)) as [a b]. unfold Re, Im, RtoC, Cmult. cbn. ring. }
    apply (eq_der _ u ((al * nrm l m) * Re (dS l m e (g u)) + (be * nrm l m) * Im (dS l m e (g u)))%R).
    - apply (is_derive_plus (K := R_AbsRing) (V := R_NormedModule) (fun t => (al * nrm l m) * Re (S_ l m (g t)))%R (fun t => (be * nrm l m) * Im (S_ l m (g t)))%R); [apply (is_derive_scal (fun t => Re (S_ l m (g t)))); exact D1|apply (is_derive_scal (fun t => Im (S_ l m (g t)))); exact D2].
    - destruct (dS l m e (g u)) as [a b]. unfold Re, Im, RtoC, Cmult. cbn. ring. }
  destruct (MVT_cor2 h h' 0 1 Rlt_0_1) as (c & E & Hc). { intros c _. apply is_derive_Reals, D. }
  assert (G0 : g 0 = w) by (unfold g, e; destruct v as [[? ?] ?], w as [[? ?] ?]; unfold on_line, vsub; apply v3; ring). assert (G1 : g 1 = v) by (unfold g, e; destruct v as [[? ?] ?], w as [[? ?] ?]; unfold on_line, vsub; apply v3; ring).
  unfold h in E at 1 2. rewrite G0, G1, <- !rsolid_S in E. rewrite E, Rminus_0_r, Rmult_1_r. unfold h'. eapply Rle_trans; [now apply phase_le|]. rewrite Cmod_mult, Cmod_R, Rabs_pos_eq by apply sqrt_pos. apply grad_bound; [exact Hl|exact Hm|].
  replace (g c) with (vadd (vscal (1 - c) w) (vscal c v)) by (unfold g, e; destruct v as [[? ?] ?], w as [[? ?] ?]; unfold on_line, vsub, vadd, vscal; apply v3; ring).
  eapply Rle_trans; [apply vnorm_triangle|]. rewrite !vn_scal, !Rabs_pos_eq by lra. replace r with ((1 - c) * r + c * r) by ring. apply Rplus_le_compat; apply Rmult_le_compat_l; lra.
Qed.
Definition steep (l : Z) (r : R) : R := 2 * IZR l * scale l * r ^ Z.to_nat (l - 1).
Lemma steep_pos l r : (0 <= l)%Z -> 0 <= r -> 0 <= steep l r.
Proof. intros Hl Hr. unfold steep. apply Rmult_le_pos; [|now apply pow_le]. apply Rmult_le_pos; [|apply sqrt_pos]. assert (Q := IZR_le _ _ Hl). lra. Qed.
Lemma solid_lip l m r al be : al ^ 2 + be ^ 2 = 1 -> (0 <= l)%Z -> (Z.abs m <= l)%Z -> 0 < r -> lip (steep l r) (fun v => phase al be (rsolid l m (into r v))).
Proof.
  intros T Hl Hm Hr v w. cbv beta. assert (S0 := steep_pos l r Hl ltac:(lra)). destruct (Z.eq_dec l 0) as [->|NE].
  - replace m with 0%Z by lia. rewrite !rsolid_S. assert (E : forall p, S_ 0 0 p = RtoC 1).
    { intros p. destruct p as [[x y] z]. apply solid_00. }
    rewrite !E. unfold Rminus. rewrite Rplus_opp_r, Rabs_R0. apply Rmult_le_pos; [exact S0|apply vn_ge0].
  - eapply Rle_trans; [apply (solid_ball_lip l m r); [exact T|lia|exact Hm|rewrite into_size by exact Hr; apply Rmin_r|rewrite into_size by exact Hr; apply Rmin_r]|]. apply Rmult_le_compat_l; [exact S0|]. now apply into_lip.
Qed.
Lemma phase_found z e : 0 <= e -> (forall al be, al ^ 2 + be ^ 2 = 1 -> Rabs (phase al be z) <= e) -> Cmod z <= e.
Proof.
  intros He H. destruct (Req_dec (Cmod z) 0) as [E|E]; [rewrite E; exact He|].
  assert (P : 0 < Cmod z) by (destruct (Cmod_ge_0 z) as [Q|Q]; [exact Q|congruence]).
  assert (S : Cmod z ^ 2 = Re z ^ 2 + Im z ^ 2) by (unfold Cmod; rewrite pow2_sqrt; [reflexivity|]; assert (A := pow2_ge_0 (fst z)); assert (B := pow2_ge_0 (snd z)); lra).
  specialize (H (Re z / Cmod z) (Im z / Cmod z)). unfold phase in H. replace (Re z / Cmod z * Re z + Im z / Cmod z * Im z) with (Cmod z) in H.
  - rewrite Rabs_pos_eq in H by lra. apply H. replace ((Re z / Cmod z) ^ 2 + (Im z / Cmod z) ^ 2) with ((Re z ^ 2 + Im z ^ 2) / Cmod z ^ 2) by (field; lra). rewrite <- S. field. lra.
  - replace (Re z / Cmod z * Re z + Im z / Cmod z * Im z) with ((Re z ^ 2 + Im z ^ 2) / Cmod z) by (field; lra). rewrite <- S. field. lra.
Qed.
