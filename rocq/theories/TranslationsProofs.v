(* Proofs about Translations.v *)
From Verif Require Export Translations TransSpec ClebschGordanProofs Pg2MultiProofs.
From Coq Require Import Psatz.
From Verif Require Import Cplx.
Open Scope C_scope.

(* ---- polar angles ---- *)
Lemma Y_rsolid l m v : (Z.abs m <= l)%Z -> vnorm v <> 0%R ->
  RtoC (vnorm v ^ Z.to_nat l) * Cconj (sph_harm m l (tphi v) (ttheta v)) = rsolid l m v.
Proof.
  intros Hm Hr. unfold tphi, ttheta, rsolid. destruct v as [[x y] z].
  rewrite vnorm_xyz in *. destruct (spherical_of_cartesian x y z Hr) as (B & Ex & Ey & Ez).
  destruct (pymod_2PI (arctan2 y x)) as [E3 E4]. cbv zeta in *. rewrite E3 in Ex. rewrite E4 in Ey.
  rewrite sph_harm_solid by assumption. f_equal. now rewrite <- Ex, <- Ey, <- Ez.
Qed.
Lemma rsolid_S l m v : rsolid l m v = RtoC (nrm l m) * S_ l m v.
Proof. destruct v as [[x y] z]. reflexivity. Qed.
Lemma S_zero l m v : (l < Z.abs m)%Z -> S_ l m v = 0.
Proof. destruct v as [[x y] z]. apply solid_zero. Qed.
Lemma S_neg l m v : (l < 0)%Z -> S_ l m v = 0.
Proof. intros. apply S_zero. lia. Qed.
Lemma S_symm l m v : S_ l (- m) v = sgnC m * Cconj (S_ l m v).
Proof. destruct v as [[x y] z]. apply solid_symm. Qed.
Lemma S_opp l m v : S_ l m (vopp v) = sgnC l * S_ l m v.
Proof.
  destruct (Z_lt_le_dec l 0) as [H|H]; [rewrite !S_neg by lia; ring|].
  destruct v as [[x y] z]. unfold S_, vopp, solid.
  rewrite <- (Z2Nat.id l) at 2 by lia. rewrite sgnC_pow, <- tri_scal by lia. rewrite (RtoC_opp x), (RtoC_opp y), (RtoC_opp z). f_equal; field.
Qed.
Lemma S_v0 l m : S_ l m v0 = if ((l =? 0) && (m =? 0))%bool%Z then 1 else 0.
Proof.
  unfold S_, v0. destruct (Z.eqb_spec l 0) as [->|Hl]; [|now apply solid_origin].
  destruct (Z.eqb_spec m 0) as [->|Hm]; [apply solid_00|]. apply solid_zero. lia.
Qed.
(* addition theorem over wide index ranges *)
Lemma S_add_wide u v a b c d L M :
  (a <= 0)%Z -> (0 < b)%Z -> (L < b)%Z -> (c <= 0)%Z -> (c <= - L)%Z -> (0 < d)%Z -> (L < d)%Z ->
  S_ L M (vadd u v) = zsum a b (fun l => zsum c d (fun m => S_ l m u * S_ (L - l) (M - m) v)).
Proof.
  intros. destruct u as [[x y] z], v as [[x' y'] z']. unfold S_, vadd, solid.
  rewrite <- (tri_add_wide _ _ _ _ _ _ (Z.to_nat L)) by lia.
  f_equal; rewrite !RtoC_plus; field.
Qed.

(* ---- coefficients ---- *)
Lemma exp_gl2 a b c : exp (gammaln (a + 1) - gammaln (b + 1) - gammaln (c + 1)) = (zfact a / (zfact b * zfact c))%R.
Proof.
  unfold Rminus. rewrite !exp_plus, !exp_Ropp, !exp_gl. assert (H := zfact_neq0 b). assert (H' := zfact_neq0 c). now field.
Qed.
Ltac posr := repeat match goal with |- (0 < _ * _)%R => apply Rmult_lt_0_compat | |- (0 < _ / _)%R => apply Rdiv_lt_0_compat end; try assumption; try lra.
Lemma coef_inner l lP m mP : (Z.abs m <= l)%Z -> (Z.abs mP <= lP)%Z ->
  (sq4 (gammaln (2 * (lP + l) + 2) - gammaln (2 * lP + 2) - gammaln (2 * l + 2)) * cgCoeff lP l mP m (lP + l) (mP + m)
   = nrm (lP + l) (mP + m) / (nrm lP mP * nrm l m))%R.
Proof.
  intros H1 H2. rewrite cg_stretched by assumption. unfold sq4.
  replace (2 * (lP + l) + 2)%Z with ((2 * (lP + l) + 1) + 1)%Z by ring.
  replace (2 * lP + 2)%Z with ((2 * lP + 1) + 1)%Z by ring.
  replace (2 * l + 2)%Z with ((2 * l + 1) + 1)%Z by ring. rewrite exp_gl2.
  unfold nrm. assert (Hp := PI_RGT_0).
  assert (Hl : (0 <= IZR l)%R) by (apply IZR_le; lia). assert (HlP : (0 <= IZR lP)%R) by (apply IZR_le; lia).
  assert (HL : (0 <= IZR (lP + l))%R) by (apply IZR_le; lia).
  fpos. rewrite <- sqrt_mult_alt by (apply Rlt_le; posr).
  rewrite <- (sqrt_mult_alt ((2 * IZR lP + 1) * _ * _ / _)) by (apply Rlt_le; posr).
  rewrite <- sqrt_div_alt by posr. f_equal.
  rewrite (zfact_succ (2 * (lP + l))), (zfact_succ (2 * lP)), (zfact_succ (2 * l)) by lia.
  rewrite !(plus_IZR _ 1), !(mult_IZR 2).
  assert (0 < zfact (2 * l))%R by apply zfact_pos. assert (0 < zfact (2 * lP))%R by apply zfact_pos.
  assert (0 < zfact (2 * (lP + l)))%R by apply zfact_pos.
  field. repeat split; try (apply Rgt_not_eq; assumption); intros ?; lra.
Qed.
Lemma coef_outer l lP m mP : (Z.abs m <= l)%Z -> (Z.abs mP <= lP)%Z -> (Z.abs (mP + m) <= l - lP)%Z ->
  (sq4 (gammaln (2 * l + 1) - gammaln (2 * lP + 2) - gammaln (2 * (l - lP) + 1)) * cgCoeff lP l mP m (l - lP) (mP + m)
   = sgnR (lP - mP) * ((2 * IZR (l - lP) + 1) / nrm (l - lP) (mP + m) * (nrm l m / (2 * IZR l + 1)) / nrm lP mP))%R.
Proof.
  intros H1 H2 H3. rewrite cg_lowered by assumption. unfold sq4.
  replace (2 * lP + 2)%Z with ((2 * lP + 1) + 1)%Z by ring. rewrite exp_gl2.
  assert (Hp := PI_RGT_0).
  assert (Hl : (0 <= IZR l)%R) by (apply IZR_le; lia). assert (HlP : (0 <= IZR lP)%R) by (apply IZR_le; lia).
  assert (HL : (0 <= IZR (l - lP))%R) by (apply IZR_le; lia).
  rewrite (Rmult_comm (sgnR _)), <- Rmult_assoc, Rmult_comm. f_equal.
  replace ((2 * IZR (l - lP) + 1) / nrm (l - lP) (mP + m) * (nrm l m / (2 * IZR l + 1)) / nrm lP mP)%R
    with (nrm l m / (nrm (l - lP) (mP + m) * nrm lP mP) * ((2 * IZR (l - lP) + 1) / (2 * IZR l + 1)))%R
    by (field; repeat split; (apply nrm_neq0; lia) || (intros ?; lra)).
  set (k := ((2 * IZR (l - lP) + 1) / (2 * IZR l + 1))%R).
  assert (Hk : (0 < k)%R) by (unfold k; posr).
  rewrite <- (sqrt_square k) by lra. unfold nrm. fpos.
  rewrite <- !sqrt_mult_alt by (apply Rlt_le; posr). rewrite <- sqrt_div_alt by posr.
  rewrite <- sqrt_mult_alt by (apply Rlt_le; posr). f_equal.
  rewrite (zfact_succ (2 * (l - lP))), (zfact_succ (2 * lP)), (zfact_succ (2 * l)) by lia.
  rewrite !(plus_IZR _ 1), !(mult_IZR 2).
  assert (0 < zfact (2 * l))%R by apply zfact_pos. assert (0 < zfact (2 * lP))%R by apply zfact_pos.
  assert (0 < zfact (2 * (l - lP)))%R by apply zfact_pos. unfold k.
  field. repeat split; try (apply Rgt_not_eq; assumption); intros ?; lra.
Qed.

(* ---- the translation operators on reduced moments ---- *)
Definition hq (q : marr) (l m : Z) : C := if (Z.abs m <=? l)%Z then mom q l m / RtoC (nrm l m) else 0.
Definition hQ (q : marr) (l m : Z) : C := if (Z.abs m <=? l)%Z then mom q l m * RtoC (nrm l m / (2 * IZR l + 1)) else 0.
Definition Tin (N : Z) (f : Z -> Z -> C) (t : vec) (L M : Z) : C :=
  zsum 0 (N + 1) (fun l => zsum (- N) (N + 1) (fun m => S_ (L - l) (M - m) t * f l m)).
Definition Tout (N : Z) (f : Z -> Z -> C) (t : vec) (L M : Z) : C :=
  zsum 0 (N + 1) (fun l => zsum (- N) (N + 1) (fun m => S_ (l - L) (m - M) (vopp t) * f l m)).
Definition supp (f : Z -> Z -> C) : Prop := forall l m, (l < Z.abs m)%Z -> f l m = 0.
Definition symmN (N : Z) (f : Z -> Z -> C) : Prop := forall l m, (0 <= l <= N)%Z -> f l (- m)%Z = sgnC m * Cconj (f l m).
Lemma supp_hq q : supp (hq q).
Proof. intros l m H. unfold hq. now rewrite (proj2 (Z.leb_gt _ _)) by lia. Qed.
Lemma supp_hQ q : supp (hQ q).
Proof. intros l m H. unfold hQ. now rewrite (proj2 (Z.leb_gt _ _)) by lia. Qed.
Lemma symm_hq q : reality q -> symmN (deg q) (hq q).
Proof.
  intros H l m Hl. unfold hq. rewrite Z.abs_opp. destruct (Z.leb_spec (Z.abs m) l).
  - rewrite H, nrm_opp, Cconj_div, Cconj_RtoC by lia. unfold Cdiv. ring.
  - rewrite Cconj_RtoC. ring.
Qed.
Lemma symm_hQ q : reality q -> symmN (deg q) (hQ q).
Proof.
  intros H l m Hl. unfold hQ. rewrite Z.abs_opp. destruct (Z.leb_spec (Z.abs m) l).
  - rewrite H, nrm_opp, Cconj_mult, Cconj_RtoC by lia. ring.
  - rewrite Cconj_RtoC. ring.
Qed.
Lemma Tin_ext N f g t L M : (forall l m, (0 <= l <= N)%Z -> f l m = g l m) -> Tin N f t L M = Tin N g t L M.
Proof. intros H. unfold Tin. apply zsum_ext. intros l Hl. apply zsum_ext. intros m Hm. rewrite H by lia. reflexivity. Qed.
Lemma Tin_supp N f t : (0 <= N)%Z -> supp f -> supp (Tin N f t).
Proof.
  intros HN Hf L M H. unfold Tin. apply zsum_0. intros l Hl. apply zsum_0. intros m Hm.
  destruct (Z_lt_le_dec l (Z.abs m)); [rewrite Hf by lia; ring|]. rewrite S_zero by lia. ring.
Qed.
Lemma Tin_symm N f t : symmN N f -> symmN N (Tin N f t).
Proof.
  intros Hf L M HL. unfold Tin. rewrite zsum_conj, <- zsum_scal_l. apply zsum_ext. intros l Hl.
  rewrite zsum_conj, <- zsum_scal_l. rewrite zsum_rev. replace (1 - (N + 1))%Z with (- N)%Z by ring.
  replace (1 - - N)%Z with (N + 1)%Z by ring. apply zsum_ext. intros m Hm.
  replace (- M - - m)%Z with (- (M - m))%Z by ring. rewrite S_symm, Hf by lia.
  rewrite Cconj_mult, sgnC_sub. transitivity (sgnC M * (sgnC m * sgnC m) * (Cconj (S_ (L - l) (M - m) t) * Cconj (f l m))); [ring|].
  rewrite sgnC_sq. ring.
Qed.
Lemma Tout_symm N f t : symmN N f -> symmN N (Tout N f t).
Proof.
  intros Hf L M HL. unfold Tout. rewrite zsum_conj, <- zsum_scal_l. apply zsum_ext. intros l Hl.
  rewrite zsum_conj, <- zsum_scal_l. rewrite zsum_rev. replace (1 - (N + 1))%Z with (- N)%Z by ring.
  replace (1 - - N)%Z with (N + 1)%Z by ring. apply zsum_ext. intros m Hm.
  replace (- m - - M)%Z with (- (m - M))%Z by ring. rewrite S_symm, Hf by lia.
  rewrite Cconj_mult, sgnC_sub. transitivity (sgnC M * (sgnC m * sgnC m) * (Cconj (S_ (l - L) (m - M) (vopp t)) * Cconj (f l m))); [ring|].
  rewrite sgnC_sq. ring.
Qed.
Lemma Tin_0 N f L M : (0 <= L <= N)%Z -> (Z.abs M <= N)%Z -> Tin N f v0 L M = f L M.
Proof.
  intros HL HM. unfold Tin. rewrite (zsum_single _ _ L) by (lia || (intros k Hk Hk2; apply zsum_0; intros m Hm; rewrite S_v0;
    destruct (Z.eqb_spec (L - k) 0); [lia|cbn; ring])).
  rewrite (zsum_single _ _ M) by (lia || (intros k Hk Hk2; rewrite S_v0; destruct (Z.eqb_spec (M - k) 0); [lia|rewrite Bool.andb_false_r; ring])).
  rewrite S_v0, !Z.sub_diag. cbn. ring.
Qed.
Lemma Tout_0 N f L M : (0 <= L <= N)%Z -> (Z.abs M <= N)%Z -> Tout N f v0 L M = f L M.
Proof.
  intros HL HM. unfold Tout. assert (E : vopp v0 = v0) by (unfold vopp, v0; now rewrite Ropp_0). rewrite E.
  rewrite (zsum_single _ _ L) by (lia || (intros k Hk Hk2; apply zsum_0; intros m Hm; rewrite S_v0;
    destruct (Z.eqb_spec (k - L) 0); [lia|cbn; ring])).
  rewrite (zsum_single _ _ M) by (lia || (intros k Hk Hk2; rewrite S_v0; destruct (Z.eqb_spec (k - M) 0); [lia|rewrite Bool.andb_false_r; ring])).
  rewrite S_v0, !Z.sub_diag. cbn. ring.
Qed.
Lemma Tin_comp N f t u L M : supp f -> (0 <= L <= N)%Z -> (Z.abs M <= L)%Z ->
  Tin N (Tin N f t) u L M = Tin N f (vadd t u) L M.
Proof.
  intros Hf HL HM. unfold Tin.
  transitivity (zsum 0 (N + 1) (fun l => zsum (- N) (N + 1) (fun m => zsum 0 (N + 1) (fun l' => zsum (- N) (N + 1) (fun m' =>
     S_ (L - l) (M - m) u * S_ (l - l') (m - m') t * f l' m'))))).
  { apply zsum_ext. intros l _. apply zsum_ext. intros m _. rewrite <- zsum_scal_l. apply zsum_ext. intros l' _.
    rewrite <- zsum_scal_l. apply zsum_ext. intros m' _. ring. }
  transitivity (zsum 0 (N + 1) (fun l' => zsum (- N) (N + 1) (fun m' => zsum 0 (N + 1) (fun l => zsum (- N) (N + 1) (fun m => 
     S_ (L - l) (M - m) u * S_ (l - l') (m - m') t * f l' m'))))).
  { transitivity (zsum 0 (N + 1) (fun l => zsum 0 (N + 1) (fun l' => zsum (- N) (N + 1) (fun m => zsum (- N) (N + 1) (fun m' =>
     S_ (L - l) (M - m) u * S_ (l - l') (m - m') t * f l' m'))))); [apply zsum_ext; intros; apply zsum_swap|].
    rewrite zsum_swap. apply zsum_ext. intros l' _.
    transitivity (zsum 0 (N + 1) (fun l => zsum (- N) (N + 1) (fun m' => zsum (- N) (N + 1) (fun m =>
     S_ (L - l) (M - m) u * S_ (l - l') (m - m') t * f l' m')))); [apply zsum_ext; intros; apply zsum_swap|].
    apply zsum_swap. }
  apply zsum_ext. intros l' Hl'. apply zsum_ext. intros m' Hm'.
  destruct (Z_lt_le_dec l' (Z.abs m')) as [Hs|Hs].
  { rewrite (Hf l' m') by lia. rewrite zsum_0; [ring|]. intros. apply zsum_0. intros. ring. }
  transitivity (f l' m' * zsum 0 (N + 1) (fun l => zsum (- N) (N + 1) (fun m => S_ (l - l') (m - m') t * S_ (L - l) (M - m) u))).
  { rewrite <- zsum_scal_l. apply zsum_ext. intros l _. rewrite <- zsum_scal_l. apply zsum_ext. intros m _. ring. }
  rewrite (S_add_wide t u (0 - l') (N + 1 - l') (- N - m') (N + 1 - m') (L - l') (M - m')) by lia.
  rewrite Cmult_comm. f_equal. rewrite (zsum_shift (- l')). apply zsum_ext. intros l _.
  rewrite (zsum_shift (- m')). apply zsum_ext. intros m _. f_equal; f_equal; ring.
Qed.
Lemma Tout_comp N f t u L M : supp f -> (0 <= L <= N)%Z -> (Z.abs M <= L)%Z ->
  Tout N (fun l m => if (Z.abs m <=? l)%Z then Tout N f t l m else 0) u L M = Tout N f (vadd t u) L M.
Proof.
  intros Hf HL HM. unfold Tout.
  transitivity (zsum 0 (N + 1) (fun l => zsum (- N) (N + 1) (fun m => zsum 0 (N + 1) (fun l' => zsum (- N) (N + 1) (fun m' =>
     (if (Z.abs m <=? l)%Z then S_ (l - L) (m - M) (vopp u) * S_ (l' - l) (m' - m) (vopp t) else 0) * f l' m'))))).
  { apply zsum_ext. intros l _. apply zsum_ext. intros m _. destruct (Z.abs m <=? l)%Z.
    - rewrite <- zsum_scal_l. apply zsum_ext. intros l' _.
      rewrite <- zsum_scal_l. apply zsum_ext. intros m' _. ring.
    - rewrite Cmult_0_r. symmetry. apply zsum_0; intros; apply zsum_0; intros; ring. }
  transitivity (zsum 0 (N + 1) (fun l' => zsum (- N) (N + 1) (fun m' => zsum 0 (N + 1) (fun l => zsum (- N) (N + 1) (fun m => 
     (if (Z.abs m <=? l)%Z then S_ (l - L) (m - M) (vopp u) * S_ (l' - l) (m' - m) (vopp t) else 0) * f l' m'))))).
  { transitivity (zsum 0 (N + 1) (fun l => zsum 0 (N + 1) (fun l' => zsum (- N) (N + 1) (fun m => zsum (- N) (N + 1) (fun m' =>
     (if (Z.abs m <=? l)%Z then S_ (l - L) (m - M) (vopp u) * S_ (l' - l) (m' - m) (vopp t) else 0) * f l' m'))))); [apply zsum_ext; intros; apply zsum_swap|].
    rewrite zsum_swap. apply zsum_ext. intros l' _.
    transitivity (zsum 0 (N + 1) (fun l => zsum (- N) (N + 1) (fun m' => zsum (- N) (N + 1) (fun m =>
     (if (Z.abs m <=? l)%Z then S_ (l - L) (m - M) (vopp u) * S_ (l' - l) (m' - m) (vopp t) else 0) * f l' m')))); [apply zsum_ext; intros; apply zsum_swap|].
    apply zsum_swap. }
  apply zsum_ext. intros l' Hl'. apply zsum_ext. intros m' Hm'.
  destruct (Z_lt_le_dec l' (Z.abs m')) as [Hs|Hs].
  { rewrite (Hf l' m') by lia. rewrite zsum_0; [ring|]. intros. apply zsum_0. intros. ring. }
  transitivity (f l' m' * zsum 0 (N + 1) (fun l => zsum (- N) (N + 1) (fun m => S_ (l - L) (m - M) (vopp u) * S_ (l' - l) (m' - m) (vopp t)))).
  { rewrite <- zsum_scal_l. apply zsum_ext. intros l _. rewrite <- zsum_scal_l. apply zsum_ext. intros m _.
    destruct (Z.leb_spec (Z.abs m) l) as [H|H]; [ring|]. rewrite (S_zero (l - L)) by lia. ring. }
  replace (vopp (vadd t u)) with (vadd (vopp u) (vopp t)) by (destruct t as [[? ?] ?], u as [[? ?] ?]; unfold vopp, vadd; repeat (f_equal; try ring)).
  rewrite (S_add_wide (vopp u) (vopp t) (0 - L) (N + 1 - L) (- N - M) (N + 1 - M) (l' - L) (m' - M)) by lia.
  rewrite Cmult_comm. f_equal. rewrite (zsum_shift (- L)). apply zsum_ext. intros l _.
  rewrite (zsum_shift (- M)). apply zsum_ext. intros m _. f_equal; f_equal; ring.
Qed.

Lemma ylmS_in N v l m : (Z.abs m <= l)%Z -> ylmS N v l (N + m) = sph_harm m l (tphi v) (ttheta v).
Proof. intros H. unfold ylmS. replace (N + m - N)%Z with m by ring. now rewrite (proj2 (Z.leb_le _ _)). Qed.
Lemma is0_false x : x <> 0%R -> is0 x = false.
Proof. unfold is0. destruct (Req_EM_T x 0); [contradiction|reflexivity]. Qed.
Lemma is0_true x : x = 0%R -> is0 x = true.
Proof. unfold is0. destruct (Req_EM_T x 0); [reflexivity|contradiction]. Qed.
Lemma vnorm_0_iff v : vnorm v = 0%R <-> v = v0.
Proof.
  split; [|intros ->; apply vnorm_v0]. intros H. destruct v as [[x y] z]. rewrite vnorm_xyz in H.
  apply sqrt_eq_0 in H; [|nra]. unfold v0. assert (x = 0 /\ y = 0 /\ z = 0)%R as (-> & -> & ->); [|reflexivity]. nra.
Qed.
Lemma nrmC_neq0 l m : (0 <= l)%Z -> RtoC (nrm l m) <> 0.
Proof. intros. now apply RtoC_neq0, nrm_neq0. Qed.

Lemma cell_inner q t L M : vnorm t <> 0%R -> (0 <= L <= deg q)%Z -> (Z.abs M <= L)%Z ->
  zsum 0 (L + 1) (fun l =>
        let lP := (L - l)%Z in
        let fac := (sq4 (gammaln (2 * L + 2) - gammaln (2 * lP + 2) - gammaln (2 * l + 2)) * vnorm t ^ Z.to_nat lP)%R in
        zsum (- l) (l + 1) (fun m =>
          let mP := (M - m)%Z in
          if (Z.abs mP <=? lP)%Z
          then RtoC (fac * cgCoeff lP l mP m L M) * Cconj (ylmS (deg q) t lP (deg q + mP)) * at_ q l (deg q + m)
          else 0))
  = RtoC (nrm L M) * Tin (deg q) (hq q) t L M.
Proof.
  intros Ht HL HM. cbv zeta. unfold Tin.
  rewrite (zsum_sub 0 (deg q + 1) 0 (L + 1)) by (lia || (intros k H1 H2; apply zsum_0; intros; rewrite S_neg by lia; ring)).
  rewrite <- zsum_scal_l. apply zsum_ext. intros l Hl.
  rewrite (zsum_sub (- deg q) (deg q + 1) (- l) (l + 1)) by (lia || (intros k H1 H2; rewrite supp_hq by lia; ring)).
  rewrite <- zsum_scal_l. apply zsum_ext. intros m Hm.
  destruct (Z.leb_spec (Z.abs (M - m)) (L - l)) as [H|H].
  - rewrite ylmS_in by assumption.
    transitivity (RtoC (sq4 (gammaln (2 * (L - l + l) + 2) - gammaln (2 * (L - l) + 2) - gammaln (2 * l + 2)) * cgCoeff (L - l) l (M - m) m (L - l + l) (M - m + m))
      * (RtoC (vnorm t ^ Z.to_nat (L - l)) * Cconj (sph_harm (M - m) (L - l) (tphi t) (ttheta t))) * mom q l m).
    { replace (L - l + l)%Z with L by ring. replace (M - m + m)%Z with M by ring. unfold mom. rewrite !RtoC_mult. ring. }
    rewrite coef_inner, Y_rsolid, rsolid_S by (assumption || lia).
    replace (L - l + l)%Z with L by ring. replace (M - m + m)%Z with M by ring.
    unfold hq. rewrite (proj2 (Z.leb_le (Z.abs m) l)) by lia.
    assert (H1 := nrmC_neq0 (L - l) (M - m) ltac:(lia)). assert (H2 := nrmC_neq0 l m ltac:(lia)).
    rewrite RtoC_div, RtoC_mult by (apply Rmult_integral_contrapositive_currified; apply nrm_neq0; lia).
    field. now split.
  - rewrite S_zero by lia. ring.
Qed.
Lemma reflect_fill_holds N F : (0 <= N)%Z -> symmN N F ->
  deg (Arr.reflect (fill 0 (N + 1) N F (zeros N))) = N /\ holds (Arr.reflect (fill 0 (N + 1) N F (zeros N))) F.
Proof.
  intros HN Hsy.
  assert (Hdf : deg (fill 0 (N + 1) N F (zeros N)) = N) by (now rewrite deg_fill by lia).
  split; [now rewrite deg_reflect|].
  assert (Hh : half (fill 0 (N + 1) N F (zeros N)) F) by now apply half_fill.
  (* restrict to the rows of the array *)
  set (F' := fun l m => if ((0 <=? l) && (l <=? N))%bool%Z then F l m else 0).
  assert (Hh' : half (fill 0 (N + 1) N F (zeros N)) F').
  { intros l m Hl Hm. rewrite (Hh l m Hl Hm). unfold F'. rewrite Hdf in *.
    destruct (Z.leb_spec 0 l), (Z.leb_spec l N); try lia; reflexivity. }
  assert (Hsy' : forall l m, (Z.abs m <= l)%Z -> F' l (- m)%Z = sgnC m * Cconj (F' l m)).
  { intros l m _. unfold F'. destruct (Z.leb_spec 0 l), (Z.leb_spec l N); cbn [andb]; try (rewrite Cconj_RtoC; ring).
    apply Hsy; lia. }
  eapply holds_deg_ext; [|exact (reflect_holds _ _ Hh' Hsy')].
  intros l m Hl Hm. rewrite deg_reflect, Hdf in Hl. unfold F'. destruct (Z.leb_spec 0 l), (Z.leb_spec l N); try lia; reflexivity.
Qed.
Lemma translate_qlm_holds q t : (0 <= deg q)%Z -> reality q -> corners0 q ->
  deg (translate_qlm q t) = deg q /\ holds (translate_qlm q t) (fun L M => RtoC (nrm L M) * Tin (deg q) (hq q) t L M).
Proof.
  intros Hd Hr Hc. unfold translate_qlm. destruct (Req_EM_T (vnorm t) 0) as [E|E].
  - rewrite is0_true by assumption. split; [reflexivity|]. split; [|exact Hc]. intros l m Hl Hm.
    apply vnorm_0_iff in E. subst t. rewrite Tin_0 by lia. unfold hq. rewrite (proj2 (Z.leb_le _ _)) by lia.
    field. apply nrmC_neq0. lia.
  - rewrite is0_false by assumption.
    rewrite (fill_ext _ _ _ _ (fun L M => RtoC (nrm L M) * Tin (deg q) (hq q) t L M)); [|lia|].
    2:{ intros. apply cell_inner; [assumption|lia|lia]. }
    apply reflect_fill_holds; [assumption|]. intros l m Hl.
    rewrite nrm_opp, (Tin_symm _ _ t (symm_hq q Hr)) by assumption.
    rewrite Cconj_mult, Cconj_RtoC. ring.
Qed.

Lemma Y_S l m v : (Z.abs m <= l)%Z -> vnorm v <> 0%R ->
  RtoC (vnorm v ^ Z.to_nat l) * sph_harm m l (tphi v) (ttheta v) = RtoC (nrm l m) * Cconj (S_ l m v).
Proof.
  intros Hm Hv. apply Cconj_inj. rewrite !Cconj_mult, !Cconj_RtoC, Cconj_conj, Y_rsolid by assumption. apply rsolid_S.
Qed.
Lemma odd_neq0 l : (0 <= l)%Z -> (2 * IZR l + 1)%R <> 0%R.
Proof. intros H. apply IZR_le in H. intros ?; lra. Qed.
Lemma cell_outer Q t L M : vnorm t <> 0%R -> (0 <= L <= deg Q)%Z -> (Z.abs M <= L)%Z ->
      zsum L (deg Q + 1) (fun l =>
        let lP := (l - L)%Z in
        let fac := (sq4 (gammaln (2 * l + 1) - gammaln (2 * lP + 2) - gammaln (2 * L + 1)) * vnorm t ^ Z.to_nat lP)%R in
        zsum (- l) (l + 1) (fun m =>
          let mP := (M - m)%Z in
          if ((Z.abs mP <=? lP) && (lP <=? deg Q))%bool%Z
          then RtoC (fac * cgCoeff lP l mP m L M) * ylmS (deg Q) t lP (deg Q + mP) * at_ Q l (deg Q + m)
          else 0))
  = RtoC ((2 * IZR L + 1) / nrm L M) * Tout (deg Q) (hQ Q) t L M.
Proof.
  intros Ht HL HM. cbv zeta. unfold Tout.
  rewrite (zsum_sub 0 (deg Q + 1) L (deg Q + 1)) by (lia || (intros k H1 H2; apply zsum_0; intros; rewrite S_neg by lia; ring)).
  rewrite <- zsum_scal_l. apply zsum_ext. intros l Hl.
  rewrite (zsum_sub (- deg Q) (deg Q + 1) (- l) (l + 1)) by (lia || (intros k H1 H2; rewrite supp_hQ by lia; ring)).
  rewrite <- zsum_scal_l. apply zsum_ext. intros m Hm.
  rewrite (proj2 (Z.leb_le (l - L) (deg Q))) by lia. rewrite Bool.andb_true_r.
  destruct (Z.leb_spec (Z.abs (M - m)) (l - L)) as [H|H].
  - rewrite ylmS_in by assumption.
    transitivity (RtoC (sq4 (gammaln (2 * l + 1) - gammaln (2 * (l - L) + 2) - gammaln (2 * (l - (l - L)) + 1)) * cgCoeff (l - L) l (M - m) m (l - (l - L)) (M - m + m))
      * (RtoC (vnorm t ^ Z.to_nat (l - L)) * sph_harm (M - m) (l - L) (tphi t) (ttheta t)) * mom Q l m).
    { replace (l - (l - L))%Z with L by ring. replace (M - m + m)%Z with M by ring. unfold mom. rewrite !RtoC_mult. ring. }
    rewrite coef_outer, Y_S by (assumption || lia).
    replace (l - (l - L))%Z with L by ring. replace (M - m + m)%Z with M by ring.
    unfold hQ. rewrite (proj2 (Z.leb_le (Z.abs m) l)) by lia.
    rewrite S_opp. replace (m - M)%Z with (- (M - m))%Z by ring. rewrite S_symm.
    assert (H1 := nrm_neq0 (l - L) (M - m) ltac:(lia)).
    set (k1 := ((2 * IZR L + 1) / nrm L M)%R). set (k2 := (nrm l m / (2 * IZR l + 1))%R).
    set (n := nrm (l - L) (M - m)) in *. clearbody n k1 k2.
    rewrite (RtoC_mult (sgnR _)), sgnR_C, sgnC_sub, (RtoC_div (k1 * k2)), (RtoC_mult k1) by assumption.
    field. now apply RtoC_neq0.
  - rewrite S_zero by lia. ring.
Qed.
Lemma translate_Qlmb_holds Q t : (0 <= deg Q)%Z -> reality Q -> corners0 Q ->
  deg (translate_Qlmb Q t) = deg Q /\
  holds (translate_Qlmb Q t) (fun L M => RtoC ((2 * IZR L + 1) / nrm L M) * Tout (deg Q) (hQ Q) t L M).
Proof.
  intros Hd Hr Hc. unfold translate_Qlmb. destruct (Req_EM_T (vnorm t) 0) as [E|E].
  - rewrite is0_true by assumption. split; [reflexivity|]. split; [|exact Hc]. intros l m Hl Hm.
    apply vnorm_0_iff in E. subst t. rewrite Tout_0 by lia. unfold hQ. rewrite (proj2 (Z.leb_le _ _)) by lia.
    rewrite !RtoC_div by ((apply nrm_neq0; lia) || (apply odd_neq0; lia)).
    field. split; [apply RtoC_neq0, odd_neq0; lia|apply nrmC_neq0; lia].
  - rewrite is0_false by assumption.
    rewrite (fill_ext _ _ _ _ (fun L M => RtoC ((2 * IZR L + 1) / nrm L M) * Tout (deg Q) (hQ Q) t L M)); [|lia|].
    2:{ intros. apply cell_outer; [assumption|lia|lia]. }
    apply reflect_fill_holds; [assumption|]. intros l m Hl.
    rewrite nrm_opp, (Tout_symm _ _ t (symm_hQ Q Hr)) by assumption.
    rewrite Cconj_mult, Cconj_RtoC. ring.
Qed.

(* ---- inner to outer ---- *)
Lemma fill_all_row (L n a : Z) (f : Z -> C) q k : (a <= k)%Z ->
  let q' := zfor a k (fun m q => upd q n (L + m)%Z (f m)) q in
  deg q' = deg q /\ forall i j, at_ q' i j =
    if ((i =? n) && (L + a <=? j) && (j <? L + k))%bool%Z then f (j - L)%Z else at_ q i j.
Proof.
  intros Hk. apply (zfor_ind (fun k q' => deg q' = deg q /\ forall i j, at_ q' i j =
    if ((i =? n) && (L + a <=? j) && (j <? L + k))%bool%Z then f (j - L)%Z else at_ q i j)); [assumption| |].
  - split; [reflexivity|]. intros i j. destruct (Z.leb_spec (L + a) j), (Z.ltb_spec j (L + a)); try lia; destruct (i =? n)%Z; reflexivity.
  - intros m t Hm [Hd Ht]. split; [exact Hd|]. intros i b. rewrite upd_spec, Ht.
    destruct (Z.eqb_spec i n); cbn [andb]; [|reflexivity].
    destruct (Z.eqb_spec b (L + m)).
    + subst. destruct (Z.leb_spec (L + a) (L + m)), (Z.ltb_spec (L + m) (L + (m + 1))); try lia. cbn. f_equal. ring.
    + destruct (Z.leb_spec (L + a) b), (Z.ltb_spec b (L + m)), (Z.ltb_spec b (L + (m + 1))); try lia; reflexivity.
Qed.
Lemma fill_all_spec a b L f q : (0 <= a <= b)%Z ->
  deg (fill_all a b L f q) = deg q /\ forall i j, at_ (fill_all a b L f q) i j =
    if ((a <=? i) && (i <? b) && (L - i <=? j) && (j <=? L + i))%bool%Z then f i (j - L)%Z else at_ q i j.
Proof.
  intros Hab. unfold fill_all. apply (zfor_ind (fun b q' => deg q' = deg q /\ forall i j, at_ q' i j =
    if ((a <=? i) && (i <? b) && (L - i <=? j) && (j <=? L + i))%bool%Z then f i (j - L)%Z else at_ q i j)); [lia| |].
  - split; [reflexivity|]. intros i j. destruct (Z.leb_spec a i), (Z.ltb_spec i a); try lia; reflexivity.
  - intros n t Hn [Hd Ht]. destruct (fill_all_row L n (- n) (f n) t (n + 1)) as [E1 E2]; [lia|].
    split; [congruence|]. intros i j. rewrite E2, Ht.
    destruct (Z.eqb_spec i n).
    + subst i. destruct (Z.leb_spec a n), (Z.ltb_spec n n), (Z.ltb_spec n (n + 1)), (Z.leb_spec (L + - n) j), (Z.leb_spec (L - n) j), (Z.ltb_spec j (L + (n + 1))), (Z.leb_spec j (L + n));
       try lia; reflexivity.
    + cbn [andb]. destruct (Z.leb_spec a i), (Z.ltb_spec i n), (Z.ltb_spec i (n + 1)); try lia; reflexivity.
Qed.
Lemma fill_all_holds N f : (0 <= N)%Z -> deg (fill_all 0 (N + 1) N f (zeros N)) = N /\ holds (fill_all 0 (N + 1) N f (zeros N)) f.
Proof.
  intros HN. destruct (fill_all_spec 0 (N + 1) N f (zeros N)) as [Ed Ea]; [lia|]. cbn [deg zeros] in Ed.
  split; [exact Ed|]. split; [|]; intros l m Hl Hm; unfold mom; rewrite Ed in *; rewrite Ea; cbn [at_ zeros];
    replace (N + m - N)%Z with m by ring;
    destruct (Z.leb_spec 0 l), (Z.ltb_spec l (N + 1)), (Z.leb_spec (N - l) (N + m)), (Z.leb_spec (N + m) (N + l)); try lia; reflexivity.
Qed.
Definition I_ (l m : Z) (v : vec) : C := hatQ (fun l m => isolid l m v) l m.
Lemma Y_I l m v : (Z.abs m <= l)%Z -> vnorm v <> 0%R ->
  sph_harm m l (tphi v) (ttheta v) / RtoC (vnorm v ^ Z.to_nat (l + 1)) = isolid l m v.
Proof.
  intros Hm Hr. unfold isolid. rewrite <- Y_rsolid by assumption.
  rewrite Cconj_mult, Cconj_RtoC, Cconj_conj.
  replace (Z.to_nat (2 * l + 1)) with (Z.to_nat l + Z.to_nat (l + 1))%nat by lia. rewrite pow_add, RtoC_mult.
  field. split; apply RtoC_neq0; now apply pow_nonzero.
Qed.
Definition Tq2Q (N : Z) (f : Z -> Z -> C) (t : vec) (L M : Z) : C :=
  zsum 0 (N + 1) (fun l => zsum (- l) (l + 1) (fun m => sgnC l * f l m * I_ (L + l) (M + m) t)).
Lemma cell_q2Q q t L M : vnorm t <> 0%R -> (0 <= L)%Z -> (Z.abs M <= L)%Z ->
      zsum 0 (deg q + 1) (fun lP =>
        let l := (L + lP)%Z in
        let fac := (sq4 (gammaln (2 * l + 1) - gammaln (2 * lP + 2) - gammaln (2 * L + 1)) / vnorm t ^ Z.to_nat (l + 1))%R in
        zsum (- lP) (lP + 1) (fun mP =>
          let m := (M + mP)%Z in
          if (Z.abs m <=? l)%Z
          then RtoC (fac * cgCoeff lP l (- mP) m L M * sgnR mP) * ylmS (2 * deg q) t l (2 * deg q + m) * at_ q lP (deg q + mP)
          else 0))
  = RtoC ((2 * IZR L + 1) / nrm L M) * Tq2Q (deg q) (hq q) t L M.
Proof.
  intros Ht HL HM. cbv zeta. unfold Tq2Q. rewrite <- zsum_scal_l. apply zsum_ext. intros lP Hl.
  rewrite <- zsum_scal_l. apply zsum_ext. intros mP Hm. rewrite (proj2 (Z.leb_le (Z.abs (M + mP)) (L + lP))) by lia.
  rewrite ylmS_in by lia.
  transitivity (RtoC (sq4 (gammaln (2 * (L + lP) + 1) - gammaln (2 * lP + 2) - gammaln (2 * (L + lP - lP) + 1)) * cgCoeff lP (L + lP) (- mP) (M + mP) (L + lP - lP) (- mP + (M + mP)))
      * sgnC mP * (sph_harm (M + mP) (L + lP) (tphi t) (ttheta t) / RtoC (vnorm t ^ Z.to_nat (L + lP + 1))) * mom q lP mP).
  { replace (L + lP - lP)%Z with L by ring. replace (- mP + (M + mP))%Z with M by ring. unfold mom.
    assert (Hn : (vnorm t ^ Z.to_nat (L + lP + 1))%R <> 0%R) by now apply pow_nonzero.
    unfold Rdiv. rewrite <- sgnR_C. rewrite !RtoC_mult, RtoC_inv by assumption. field. now apply RtoC_neq0. }
  rewrite coef_outer, Y_I by (assumption || lia).
  replace (L + lP - lP)%Z with L by ring. replace (- mP + (M + mP))%Z with M by ring.
  unfold hq, I_, hatQ. rewrite (proj2 (Z.leb_le (Z.abs mP) lP)) by lia.
  rewrite nrm_opp. assert (H1 := nrm_neq0 lP mP ltac:(lia)).
  set (k1 := ((2 * IZR L + 1) / nrm L M)%R). set (k2 := (nrm (L + lP) (M + mP) / (2 * IZR (L + lP) + 1))%R).
  set (n := nrm lP mP) in *. clearbody n k1 k2.
  rewrite (RtoC_mult (sgnR _)), sgnR_C, sgnC_sub, sgnC_opp, (RtoC_div (k1 * k2)), (RtoC_mult k1) by assumption.
  transitivity (sgnC lP * (sgnC mP * sgnC mP) * (RtoC k1 * RtoC k2 / RtoC n) * isolid (L + lP) (M + mP) t * mom q lP mP); [ring|].
  rewrite sgnC_sq. field. now apply RtoC_neq0.
Qed.
Lemma translate_q2Q_holds q t : (0 <= deg q)%Z -> vnorm t <> 0%R ->
  exists Q, translate_q2Q q t = Ok Q /\ deg Q = deg q /\
  holds Q (fun L M => RtoC ((2 * IZR L + 1) / nrm L M) * Tq2Q (deg q) (hq q) t L M).
Proof.
  intros Hd Ht. unfold translate_q2Q. rewrite is0_false by assumption.
  eexists. split; [reflexivity|].
  match goal with |- context [fill_all 0 _ _ ?f _] => destruct (fill_all_holds (deg q) f Hd) as [E H] end.
  split; [exact E|]. eapply holds_deg_ext; [|exact H]. rewrite E. intros L M HL HM. apply cell_q2Q; assumption || lia.
Qed.

(* ---- point masses ---- *)
Lemma inner_hat P l m : (0 <= l)%Z -> inner_moment P l m / RtoC (nrm l m) = lsum (fun p => RtoC (pm p) * S_ l m (pp p)) P.
Proof.
  intros Hl. unfold inner_moment, Cdiv. rewrite <- lsum_scal_r. apply lsum_ext. intros p _. rewrite rsolid_S.
  field. now apply nrmC_neq0.
Qed.
Lemma Tin_points N P t L M : (0 <= L <= N)%Z ->
  Tin N (fun l m => lsum (fun p => RtoC (pm p) * S_ l m (pp p)) P) t L M = lsum (fun p => RtoC (pm p) * S_ L M (vadd (pp p) t)) P.
Proof.
  intros HL. unfold Tin.
  transitivity (zsum 0 (N + 1) (fun l => lsum (fun p => zsum (- N) (N + 1) (fun m => S_ (L - l) (M - m) t * (RtoC (pm p) * S_ l m (pp p)))) P)).
  { apply zsum_ext. intros l _. rewrite lsum_zsum. apply zsum_ext. intros m _. now rewrite <- lsum_scal. }
  rewrite <- lsum_zsum. apply lsum_ext. intros p _.
  rewrite (S_add_wide (pp p) t 0 (N + 1) (- N) (N + 1)) by lia.
  rewrite <- zsum_scal_l. apply zsum_ext. intros l _. rewrite <- zsum_scal_l. apply zsum_ext. intros m _. ring.
Qed.
Lemma hq_points q P l m : (0 <= l <= deg q)%Z -> holds q (inner_moment P) -> hq q l m = lsum (fun p => RtoC (pm p) * S_ l m (pp p)) P.
Proof.
  intros Hl [H _]. unfold hq. destruct (Z.leb_spec (Z.abs m) l).
  - rewrite H by lia. apply inner_hat. lia.
  - symmetry. apply lsum_0. intros. rewrite S_zero by lia. ring.
Qed.
Lemma reality_inner q P : holds q (inner_moment P) -> reality q.
Proof. apply holds_reality. intros. apply inner_symm. Qed.
Lemma translate_points q P t : (0 <= deg q)%Z -> holds q (inner_moment P) ->
  deg (translate_qlm q t) = deg q /\ holds (translate_qlm q t) (inner_moment (map (moved t) P)).
Proof.
  intros Hd H. destruct (translate_qlm_holds q t Hd (reality_inner _ _ H) (proj2 H)) as [E Hh].
  split; [exact E|]. eapply holds_deg_ext; [|exact Hh]. rewrite E. intros L M HL HM.
  rewrite (Tin_ext _ _ (fun l m => lsum (fun p => RtoC (pm p) * S_ l m (pp p)) P)) by (intros; now apply hq_points).
  rewrite Tin_points by assumption. unfold inner_moment. rewrite lsum_map, <- lsum_scal. apply lsum_ext. intros p _.
  cbn [moved pm pp]. rewrite rsolid_S. ring.
Qed.

(* ---- arrays ---- *)
Lemma hq_translate q t l m : (0 <= deg q)%Z -> reality q -> corners0 q -> (0 <= l <= deg q)%Z ->
  hq (translate_qlm q t) l m = Tin (deg q) (hq q) t l m.
Proof.
  intros Hd Hr Hc Hl. destruct (translate_qlm_holds q t Hd Hr Hc) as [E [H _]]. unfold hq at 1.
  destruct (Z.leb_spec (Z.abs m) l).
  - rewrite H by lia. field. apply nrmC_neq0. lia.
  - symmetry. apply Tin_supp; [assumption|apply supp_hq|lia].
Qed.
Lemma translate_reality q t : (0 <= deg q)%Z -> reality q -> corners0 q ->
  reality (translate_qlm q t) /\ corners0 (translate_qlm q t).
Proof.
  intros Hd Hr Hc. destruct (translate_qlm_holds q t Hd Hr Hc) as [E [H1 H2]]. split; [|exact H2].
  intros l m Hl Hm. destruct (Z_lt_le_dec l (Z.abs m)) as [Hlt|Hle].
  - rewrite !H2 by lia. rewrite Cconj_RtoC. ring.
  - rewrite !H1 by lia. rewrite nrm_opp, (Tin_symm _ _ t (symm_hq q Hr)) by lia. rewrite Cconj_mult, Cconj_RtoC. ring.
Qed.
Lemma translate_comp q t u : (0 <= deg q)%Z -> reality q -> corners0 q ->
  same (translate_qlm (translate_qlm q t) u) (translate_qlm q (vadd t u)).
Proof.
  intros Hd Hr Hc. destruct (translate_reality q t Hd Hr Hc) as [Hr' Hc'].
  destruct (translate_qlm_holds q t Hd Hr Hc) as [E _].
  destruct (translate_qlm_holds (translate_qlm q t) u ltac:(lia) Hr' Hc') as [E2 H2].
  destruct (translate_qlm_holds q (vadd t u) Hd Hr Hc) as [E3 H3].
  apply (holds_same _ _ (fun L M => RtoC (nrm L M) * Tin (deg q) (hq q) (vadd t u) L M)); [congruence| |exact H3].
  eapply holds_deg_ext; [|exact H2]. rewrite E2, E. intros L M HL HM. f_equal.
  rewrite (Tin_ext _ _ (Tin (deg q) (hq q) t)) by (intros; now apply hq_translate).
  apply Tin_comp; [apply supp_hq|assumption|lia].
Qed.
Lemma translate_0 q : translate_qlm q v0 = q.
Proof. unfold translate_qlm. now rewrite is0_true by apply vnorm_v0. Qed.
Lemma vadd_opp t : vadd t (vopp t) = v0.
Proof. destruct t as [[x y] z]. unfold vadd, vopp, v0. now rewrite !Rplus_opp_r. Qed.
Lemma vopp_opp t : vopp (vopp t) = t.
Proof. destruct t as [[x y] z]. unfold vopp. now rewrite !Ropp_involutive. Qed.
(* outer arrays *)
Lemma hQ_translate Q t l m : (0 <= deg Q)%Z -> reality Q -> corners0 Q -> (0 <= l <= deg Q)%Z ->
  hQ (translate_Qlmb Q t) l m = if (Z.abs m <=? l)%Z then Tout (deg Q) (hQ Q) t l m else 0.
Proof.
  intros Hd Hr Hc Hl. destruct (translate_Qlmb_holds Q t Hd Hr Hc) as [E [H _]]. unfold hQ at 1.
  destruct (Z.leb_spec (Z.abs m) l); [|reflexivity].
  rewrite H by lia. rewrite !RtoC_div by ((apply nrm_neq0; lia) || (apply odd_neq0; lia)).
  field. split; [apply RtoC_neq0, odd_neq0; lia|apply nrmC_neq0; lia].
Qed.
Lemma translateQ_reality Q t : (0 <= deg Q)%Z -> reality Q -> corners0 Q ->
  reality (translate_Qlmb Q t) /\ corners0 (translate_Qlmb Q t).
Proof.
  intros Hd Hr Hc. destruct (translate_Qlmb_holds Q t Hd Hr Hc) as [E [H1 H2]]. split; [|exact H2].
  intros l m Hl Hm. destruct (Z_lt_le_dec l (Z.abs m)) as [Hlt|Hle].
  - rewrite !H2 by lia. rewrite Cconj_RtoC. ring.
  - rewrite !H1 by lia. rewrite nrm_opp, (Tout_symm _ _ t (symm_hQ Q Hr)) by lia. rewrite Cconj_mult, Cconj_RtoC. ring.
Qed.
Lemma Tout_ext N f g t L M : (forall l m, (0 <= l <= N)%Z -> f l m = g l m) -> Tout N f t L M = Tout N g t L M.
Proof. intros H. unfold Tout. apply zsum_ext. intros l Hl. apply zsum_ext. intros m Hm. rewrite H by lia. reflexivity. Qed.
Lemma translateQ_comp Q t u : (0 <= deg Q)%Z -> reality Q -> corners0 Q ->
  same (translate_Qlmb (translate_Qlmb Q t) u) (translate_Qlmb Q (vadd t u)).
Proof.
  intros Hd Hr Hc. destruct (translateQ_reality Q t Hd Hr Hc) as [Hr' Hc'].
  destruct (translate_Qlmb_holds Q t Hd Hr Hc) as [E _].
  destruct (translate_Qlmb_holds (translate_Qlmb Q t) u ltac:(lia) Hr' Hc') as [E2 H2].
  destruct (translate_Qlmb_holds Q (vadd t u) Hd Hr Hc) as [E3 H3].
  apply (holds_same _ _ (fun L M => RtoC ((2 * IZR L + 1) / nrm L M) * Tout (deg Q) (hQ Q) (vadd t u) L M)); [congruence| |exact H3].
  eapply holds_deg_ext; [|exact H2]. rewrite E2, E. intros L M HL HM. f_equal.
  rewrite (Tout_ext _ _ (fun l m => if (Z.abs m <=? l)%Z then Tout (deg Q) (hQ Q) t l m else 0)) by (intros; now apply hQ_translate).
  apply Tout_comp; [apply supp_hQ|assumption|lia].
Qed.
Lemma translateQ_0 Q : translate_Qlmb Q v0 = Q.
Proof. unfold translate_Qlmb. now rewrite is0_true by apply vnorm_v0. Qed.
(* pairing in reduced moments *)
Definition hpair (N : Z) (f g : Z -> Z -> C) : C :=
  zsum 0 (N + 1) (fun l => zsum (- N) (N + 1) (fun m => f l m * g l m)).
Lemma pairing_hpair N q Q : (N <= deg q)%Z -> (N <= deg Q)%Z ->
  pairing N (mom q) (mom Q) = hpair N (hq q) (hQ Q).
Proof.
  intros H1 H2. unfold pairing, hpair. apply zsum_ext. intros l Hl.
  rewrite (zsum_sub (- N) (N + 1) (- l) (l + 1)) by (lia || (intros k Ha Hb; rewrite supp_hq by lia; ring)).
  apply zsum_ext. intros m Hm. unfold hq, hQ. rewrite (proj2 (Z.leb_le (Z.abs m) l)) by lia.
  rewrite RtoC_div by (apply odd_neq0; lia). field. split; [apply RtoC_neq0, odd_neq0; lia|apply nrmC_neq0; lia].
Qed.
Lemma hpair_adjoint N f g t : supp f -> supp g ->
  hpair N (Tin N f t) g = hpair N f (Tout N g (vopp t)).
Proof.
  intros Hf Hg. unfold hpair, Tin, Tout. rewrite vopp_opp.
  transitivity (zsum 0 (N + 1) (fun L => zsum (- N) (N + 1) (fun M => zsum 0 (N + 1) (fun l => zsum (- N) (N + 1) (fun m =>
    S_ (L - l) (M - m) t * f l m * g L M))))).
  { apply zsum_ext. intros L _. apply zsum_ext. intros M _. rewrite <- zsum_scal_r. apply zsum_ext. intros l _.
    rewrite <- zsum_scal_r. reflexivity. }
  transitivity (zsum 0 (N + 1) (fun l => zsum (- N) (N + 1) (fun m => zsum 0 (N + 1) (fun L => zsum (- N) (N + 1) (fun M =>
    S_ (L - l) (M - m) t * f l m * g L M))))).
  { transitivity (zsum 0 (N + 1) (fun L => zsum 0 (N + 1) (fun l => zsum (- N) (N + 1) (fun M => zsum (- N) (N + 1) (fun m =>
    S_ (L - l) (M - m) t * f l m * g L M))))); [apply zsum_ext; intros; apply zsum_swap|].
    rewrite zsum_swap. apply zsum_ext. intros l _.
    transitivity (zsum 0 (N + 1) (fun L => zsum (- N) (N + 1) (fun m => zsum (- N) (N + 1) (fun M =>
    S_ (L - l) (M - m) t * f l m * g L M)))); [apply zsum_ext; intros; apply zsum_swap|]. apply zsum_swap. }
  apply zsum_ext. intros l _. apply zsum_ext. intros m _. rewrite <- zsum_scal_l. apply zsum_ext. intros L _.
  rewrite <- zsum_scal_l. apply zsum_ext. intros M _. ring.
Qed.
Lemma hpair_ext N f f' g g' : (forall l m, (0 <= l <= N)%Z -> f l m = f' l m) -> (forall l m, (0 <= l <= N)%Z -> (Z.abs m <= l)%Z -> g l m = g' l m) -> supp f' ->
  hpair N f g = hpair N f' g'.
Proof.
  intros H1 H2 Hs. unfold hpair. apply zsum_ext. intros l Hl. apply zsum_ext. intros m Hm.
  rewrite H1 by lia. destruct (Z_lt_le_dec l (Z.abs m)); [rewrite Hs by lia; ring|]. rewrite H2 by lia. reflexivity.
Qed.
Lemma pairing_adjoint q Q t : (0 <= deg q)%Z -> deg Q = deg q -> reality q -> corners0 q -> reality Q -> corners0 Q ->
  pairing (deg q) (mom (translate_qlm q t)) (mom Q) = pairing (deg q) (mom q) (mom (translate_Qlmb Q (vopp t))).
Proof.
  intros Hd HD Hr Hc Hr' Hc'.
  destruct (translate_qlm_holds q t Hd Hr Hc) as [E _]. destruct (translate_Qlmb_holds Q (vopp t) ltac:(lia) Hr' Hc') as [E' _].
  rewrite !pairing_hpair by lia.
  rewrite (hpair_ext (deg q) (hq (translate_qlm q t)) (Tin (deg q) (hq q) t) (hQ Q) (hQ Q)).
  - rewrite hpair_adjoint by (apply supp_hq || apply supp_hQ).
    apply hpair_ext; [reflexivity| |apply supp_hq]. intros l m Hl Hm. rewrite hQ_translate by (assumption || lia).
    rewrite (proj2 (Z.leb_le _ _)) by lia. now rewrite HD.
  - intros. now apply hq_translate.
  - reflexivity.
  - apply Tin_supp; [assumption|apply supp_hq].
Qed.
Lemma hQ_hold Q F l m : (0 <= l <= deg Q)%Z -> (Z.abs m <= l)%Z ->
  holds Q (fun L M => RtoC ((2 * IZR L + 1) / nrm L M) * F L M) -> hQ Q l m = F l m.
Proof.
  intros Hl Hm [H _]. unfold hQ. rewrite (proj2 (Z.leb_le _ _)) by lia. rewrite H by lia.
  rewrite !RtoC_div by ((apply nrm_neq0; lia) || (apply odd_neq0; lia)).
  field. split; [apply RtoC_neq0, odd_neq0; lia|apply nrmC_neq0; lia].
Qed.
Lemma vnorm_opp v : vnorm (vopp v) = vnorm v.
Proof. destruct v as [[x y] z]. unfold vopp, vnorm. f_equal. ring. Qed.
Lemma I_opp l m v : I_ l m (vopp v) = sgnC l * I_ l m v.
Proof.
  unfold I_, hatQ, isolid. rewrite !rsolid_S, S_opp, vnorm_opp, !Cconj_mult, sgnC_conj. unfold Cdiv. ring.
Qed.
Lemma q2Q_reciprocity q q' t Q Q' : (0 <= deg q)%Z -> deg q' = deg q -> vnorm t <> 0%R ->
  translate_q2Q q t = Ok Q -> translate_q2Q q' (vopp t) = Ok Q' ->
  pairing (deg q) (mom q') (mom Q) = pairing (deg q) (mom q) (mom Q').
Proof.
  intros Hd HD Ht E1 E2.
  destruct (translate_q2Q_holds q t Hd Ht) as (Q1 & F1 & D1 & H1). rewrite E1 in F1. injection F1 as <-.
  destruct (translate_q2Q_holds q' (vopp t) ltac:(lia) ltac:(now rewrite vnorm_opp)) as (Q2 & F2 & D2 & H2). rewrite E2 in F2. injection F2 as <-.
  rewrite !pairing_hpair by lia. set (N := deg q) in *.
  rewrite (hpair_ext N (hq q') (hq q') _ (Tq2Q N (hq q) t)).
  2: reflexivity. 2:{ intros. apply hQ_hold; [lia|lia|exact H1]. } 2: apply supp_hq.
  rewrite (hpair_ext N (hq q) (hq q) _ (Tq2Q N (hq q') (vopp t))).
  2: reflexivity. 2:{ intros. apply hQ_hold; [lia|lia|]. now rewrite HD in H2. } 2: apply supp_hq.
  assert (W : forall f s L M, supp f -> Tq2Q N f s L M = zsum 0 (N + 1) (fun l => zsum (- N) (N + 1) (fun m => sgnC l * f l m * I_ (L + l) (M + m) s))).
  { intros f s L M Hs. unfold Tq2Q. apply zsum_ext. intros l Hl. symmetry. apply zsum_sub; try lia. intros k Ha Hb. rewrite Hs by lia. ring. }
  unfold hpair.
  transitivity (zsum 0 (N + 1) (fun L => zsum (- N) (N + 1) (fun M => zsum 0 (N + 1) (fun l => zsum (- N) (N + 1) (fun m =>
    hq q' L M * (sgnC l * hq q l m * I_ (L + l) (M + m) t)))))).
  { apply zsum_ext. intros L _. apply zsum_ext. intros M _. rewrite (W _ t L M (supp_hq q)), <- zsum_scal_l.
    apply zsum_ext. intros l _. now rewrite <- zsum_scal_l. }
  transitivity (zsum 0 (N + 1) (fun l => zsum (- N) (N + 1) (fun m => zsum 0 (N + 1) (fun L => zsum (- N) (N + 1) (fun M =>
    hq q' L M * (sgnC l * hq q l m * I_ (L + l) (M + m) t)))))).
  { transitivity (zsum 0 (N + 1) (fun L => zsum 0 (N + 1) (fun l => zsum (- N) (N + 1) (fun M => zsum (- N) (N + 1) (fun m =>
    hq q' L M * (sgnC l * hq q l m * I_ (L + l) (M + m) t)))))); [apply zsum_ext; intros; apply zsum_swap|].
    rewrite zsum_swap. apply zsum_ext. intros l _.
    transitivity (zsum 0 (N + 1) (fun L => zsum (- N) (N + 1) (fun m => zsum (- N) (N + 1) (fun M =>
    hq q' L M * (sgnC l * hq q l m * I_ (L + l) (M + m) t))))); [apply zsum_ext; intros; apply zsum_swap|]. apply zsum_swap. }
  apply zsum_ext. intros l _. apply zsum_ext. intros m _.
  rewrite (W _ (vopp t) l m (supp_hq q')), <- zsum_scal_l. apply zsum_ext. intros L _. rewrite <- zsum_scal_l.
  apply zsum_ext. intros M _. rewrite I_opp. replace (l + L)%Z with (L + l)%Z by ring. replace (m + M)%Z with (M + m)%Z by ring.
  rewrite sgnC_add. transitivity (hq q' L M * (sgnC l * hq q l m * I_ (L + l) (M + m) t) * (sgnC L * sgnC L)); [rewrite sgnC_sq; ring|ring].
Qed.
Lemma q2Q_monopole q t mass : (0 <= deg q)%Z -> vnorm t <> 0%R -> holds q (inner_moment (mkpt mass v0 :: nil)) ->
  exists Q, translate_q2Q q t = Ok Q /\ deg Q = deg q /\ holds Q (outer_moment (mkpt mass t :: nil)).
Proof.
  intros Hd Ht Hq. destruct (translate_q2Q_holds q t Hd Ht) as (Q & E & D & H). exists Q. split; [exact E|]. split; [exact D|].
  eapply holds_deg_ext; [|exact H]. intros L M HL HM. cbn beta. unfold Tq2Q.
  rewrite (zsum_single _ _ 0); [|lia|].
  2:{ intros k Hk Hk0. apply zsum_0. intros m Hm. rewrite (hq_points q _ k m ltac:(lia) Hq). cbn [lsum pm pp]. rewrite S_v0.
      destruct (Z.eqb_spec k 0); [contradiction|]. cbn. ring. }
  change (- 0)%Z with 0%Z. rewrite zsum_one. rewrite (hq_points q _ 0 0 ltac:(lia) Hq). cbn [lsum pm pp]. rewrite S_v0. cbn [Z.eqb andb].
  rewrite !Z.add_0_r, sgnC_0. unfold outer_moment. cbn [lsum pm pp]. unfold I_, hatQ.
  rewrite !RtoC_div by ((apply nrm_neq0; lia) || (apply odd_neq0; lia)).
  field. split; [apply RtoC_neq0, odd_neq0; lia|apply nrmC_neq0; lia].
Qed.
Lemma q2Q_symm q t Q : (0 <= deg q)%Z -> reality q -> translate_q2Q q t = Ok Q -> reality Q /\ corners0 Q.
Proof.
  intros Hd Hr E. destruct (Req_EM_T (vnorm t) 0) as [E0|Ht].
  { unfold translate_q2Q in E. rewrite is0_true in E by assumption. discriminate. }
  destruct (translate_q2Q_holds q t Hd Ht) as (Q' & E' & D & H). rewrite E in E'. injection E' as <-.
  split; [|apply H]. apply (holds_reality _ (fun L M => RtoC ((2 * IZR L + 1) / nrm L M) * Tq2Q (deg q) (hq q) t L M)); [|exact H].
  intros L M HM. rewrite nrm_opp, Cconj_mult, Cconj_RtoC.
  transitivity (RtoC ((2 * IZR L + 1) / nrm L M) * (sgnC M * Cconj (Tq2Q (deg q) (hq q) t L M))); [|ring]. f_equal.
  unfold Tq2Q. rewrite zsum_conj, <- zsum_scal_l. apply zsum_ext. intros l Hl.
  rewrite zsum_conj, <- zsum_scal_l. rewrite zsum_rev. replace (1 - (l + 1))%Z with (- l)%Z by ring.
  replace (1 - - l)%Z with (l + 1)%Z by ring. apply zsum_ext. intros m Hm.
  rewrite (symm_hq q Hr) by lia. rewrite !Cconj_mult, sgnC_conj.
  assert (EI : I_ (L + l) (- M + - m) t = sgnC (M + m) * Cconj (I_ (L + l) (M + m) t)).
  { unfold I_, hatQ. replace (- M + - m)%Z with (- (M + m))%Z by ring. rewrite isolid_symm, nrm_opp, Cconj_mult, Cconj_RtoC. ring. }
  rewrite EI, sgnC_add.
  transitivity (sgnC M * (sgnC l * Cconj (hq q l m) * Cconj (I_ (L + l) (M + m) t)) * (sgnC m * sgnC m)); [ring|rewrite sgnC_sq; ring].
Qed.
