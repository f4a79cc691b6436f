(* Proofs about TranslationRecurs.v *)
From Verif Require Export TranslationRecurs TranslationsProofs RotationsProofs2.
From Coq Require Import FunctionalExtensionality Psatz.
From Verif Require Import Cplx.
Open Scope C_scope.

(* ---- rotation of reduced moments ---- *)
Definition WW (a b g : R) (l n m : Z) : C := cexpi (- (a * IZR n + g * IZR m)) * W (RtoC (cos (b / 2))) (RtoC (sin (b / 2))) l n m.
Lemma DD_WW a b g l n m : (Z.abs n <= l)%Z -> (Z.abs m <= l)%Z -> DD a b g l n m = RtoC (gg l n / gg l m) * WW a b g l n m.
Proof. intros Hn Hm. unfold DD, WW, dB. rewrite dW_W by lia. ring. Qed.
Lemma W_out c s l n m : (Z.abs m <= l)%Z -> (l < Z.abs n)%Z -> W c s l n m = 0.
Proof. intros. unfold W. apply Wp_supp; lia. Qed.
Lemma WW_out a b g l n m : (Z.abs m <= l)%Z -> (l < Z.abs n)%Z -> WW a b g l n m = 0.
Proof. intros. unfold WW. rewrite W_out by assumption. ring. Qed.
Lemma WW_cov a b g t l L M m : (Z.abs m <= l)%Z -> (l <= L)%Z ->
  zsum (- L) (L + 1) (fun n => WW a b g L M n * S_ (L - l) (n - m) t) = zsum (- l) (l + 1) (fun n => WW a b g l n m * S_ (L - l) (M - n) (euler a b g t)).
Proof.
  intros Hm HL. set (c := RtoC (cos (b / 2))). set (s := RtoC (sin (b / 2))).
  assert (E : zsum (- L) (L + 1) (fun n => W c s L M n * S_ (L - l) (n - m) (zrot g t)) = zsum (- l) (l + 1) (fun n => W c s l n m * S_ (L - l) (M - n) (yrot b (zrot g t)))).
  { destruct (zrot g t) as [[x y] z]. unfold S_, yrot, solid.
    assert (E := tri_cov c s (- (RtoC x - Ci * RtoC y) / RtoC 2) (RtoC z) ((RtoC x + Ci * RtoC y) / RtoC 2) l (L - l) M m Hm ltac:(lia)).
    replace (l + (L - l))%Z with L in E by ring. rewrite E. apply zsum_ext. intros n _. f_equal.
    destruct (half_cs b) as (H1 & H2 & H3 & H4 & H5). cbv zeta in *. fold c s in H1, H2, H3, H4, H5. unfold rotA, rotZ, rotB.
    rewrite H2, H4, H5. rewrite (Cmult_comm s), H2. rewrite <- ?H1.
    replace (RtoC ((1 + cos b) / 2) - RtoC ((1 - cos b) / 2)) with (RtoC (cos b)) by (rewrite <- RtoC_minus; f_equal; field).
    f_equal; apply C_eq; simpl; field. }
  transitivity (cexpi (- (IZR M * a)) * cexpi (- (IZR m * g)) * zsum (- L) (L + 1) (fun n => W c s L M n * S_ (L - l) (n - m) (zrot g t))).
  - rewrite <- zsum_scal_l. apply zsum_ext. intros n _. unfold WW. fold c s. rewrite cexpi_split, S_zrot.
    replace (cexpi (- (IZR n * g))) with (cexpi (- (IZR m * g)) * cexpi (- (IZR (n - m) * g))); [ring|].
    rewrite <- cexpi_plus. f_equal. rewrite minus_IZR. ring.
  - rewrite E, <- zsum_scal_l. apply zsum_ext. intros n _. unfold WW, euler. fold c s. rewrite cexpi_split, S_zrot.
    replace (cexpi (- (IZR M * a))) with (cexpi (- (IZR n * a)) * cexpi (- (IZR (M - n) * a))); [ring|].
    rewrite <- cexpi_plus. f_equal. rewrite minus_IZR. ring.
Qed.
Lemma WW_inv a b g l n m : (Z.abs n <= l)%Z -> (Z.abs m <= l)%Z ->
  zsum (- l) (l + 1) (fun k => WW a b g l n k * WW (- g) (- b) (- a) l k m) = if (n =? m)%Z then 1 else 0.
Proof.
  intros Hn Hm. rewrite <- (DD_unitary a b g l n m Hm).
  destruct (Z.eqb_spec n m) as [<-|Hnm].
  - apply zsum_ext. intros k Hk. rewrite DD_adj, !DD_WW by lia. assert (H1 := gg_pos l n). assert (H2 := gg_pos l k).
    transitivity (RtoC (gg l n / gg l k * (gg l k / gg l n)) * (WW a b g l n k * WW (- g) (- b) (- a) l k n)).
    + replace (gg l n / gg l k * (gg l k / gg l n))%R with 1%R by (field; split; lra). ring.
    + rewrite RtoC_mult. ring.
  - assert (E := DD_unitary a b g l n m Hm). rewrite (proj2 (Z.eqb_neq n m)) in E by assumption. rewrite E.
    assert (H1 := gg_pos l n). assert (H2 := gg_pos l m).
    transitivity (RtoC (gg l m / gg l n) * zsum (- l) (l + 1) (fun k => DD a b g l n k * Cconj (DD a b g l m k))); [|rewrite E; ring].
    rewrite <- zsum_scal_l. apply zsum_ext. intros k Hk. rewrite DD_adj, !DD_WW by lia. assert (H3 := gg_pos l k).
    transitivity (RtoC (gg l m / gg l n * (gg l n / gg l k) * (gg l k / gg l m)) * (WW a b g l n k * WW (- g) (- b) (- a) l k m)).
    + replace (gg l m / gg l n * (gg l n / gg l k) * (gg l k / gg l m))%R with 1%R by (field; repeat split; lra). ring.
    + rewrite !RtoC_mult. ring.
Qed.

Definition rot (a b g : R) (f : Z -> Z -> C) (l m : Z) : C := zsum (- l) (l + 1) (fun k => WW a b g l m k * f l k).
Definition rotT (a b g : R) (f : Z -> Z -> C) (l m : Z) : C :=
  if (Z.abs m <=? l)%Z then zsum (- l) (l + 1) (fun k => WW a b g l k m * f l k) else 0.
Lemma supp_rot a b g f : supp (rot a b g f).
Proof. intros l m H. unfold rot. apply zsum_0. intros k Hk. rewrite WW_out by lia. ring. Qed.
Lemma supp_rotT a b g f : supp (rotT a b g f).
Proof. intros l m H. unfold rotT. destruct (Z.leb_spec (Z.abs m) l); [lia|reflexivity]. Qed.
Lemma rot_rot a b g f l m : (Z.abs m <= l)%Z -> rot a b g (rot (- g) (- b) (- a) f) l m = f l m.
Proof.
  intros Hm. unfold rot.
  rewrite (zsum_ext _ _ _ (fun k => zsum (- l) (l + 1) (fun j => (WW a b g l m k * WW (- g) (- b) (- a) l k j) * f l j))).
  - rewrite zsum_swap. rewrite (zsum_ext _ _ _ (fun j => (if (m =? j)%Z then 1 else 0) * f l j)).
    + rewrite (zsum_single _ _ m); [rewrite Z.eqb_refl; ring|lia|]. intros j Hj Hn. rewrite (proj2 (Z.eqb_neq m j)) by lia. ring.
    + intros j Hj. rewrite zsum_scal_r. now rewrite WW_inv by lia.
  - intros k Hk. rewrite <- zsum_scal_l. apply zsum_ext. intros. ring.
Qed.
Lemma rotT_rotT a b g f l m : (Z.abs m <= l)%Z -> rotT (- g) (- b) (- a) (rotT a b g f) l m = f l m.
Proof.
  intros Hm. unfold rotT. rewrite (proj2 (Z.leb_le (Z.abs m) l)) by lia.
  rewrite (zsum_ext _ _ _ (fun k => zsum (- l) (l + 1) (fun j => (WW a b g l j k * WW (- g) (- b) (- a) l k m) * f l j))).
  - rewrite zsum_swap. rewrite (zsum_ext _ _ _ (fun j => (if (j =? m)%Z then 1 else 0) * f l j)).
    + rewrite (zsum_single _ _ m); [rewrite Z.eqb_refl; ring|lia|]. intros j Hj Hn. rewrite (proj2 (Z.eqb_neq j m)) by lia. ring.
    + intros j Hj. rewrite zsum_scal_r. now rewrite WW_inv by lia.
  - intros k Hk. rewrite (proj2 (Z.leb_le (Z.abs k) l)) by lia. rewrite <- zsum_scal_l. apply zsum_ext. intros. ring.
Qed.
Lemma rot_ext a b g f f' l m : (forall k, (Z.abs k <= l)%Z -> f l k = f' l k) -> rot a b g f l m = rot a b g f' l m.
Proof. intros H. unfold rot. apply zsum_ext. intros k Hk. now rewrite H by lia. Qed.
Lemma rotT_ext a b g f f' l m : (forall k, (Z.abs k <= l)%Z -> f l k = f' l k) -> rotT a b g f l m = rotT a b g f' l m.
Proof. intros H. unfold rotT. destruct (Z.leb_spec (Z.abs m) l); [|reflexivity]. apply zsum_ext. intros k Hk. now rewrite H by lia. Qed.

Lemma Tin_rot N a b g f u L M : supp f -> (0 <= L <= N)%Z ->
  Tin N (rot a b g f) (euler a b g u) L M = rot a b g (Tin N f u) L M.
Proof.
  intros Hf HL. unfold Tin, rot at 2.
  transitivity (zsum 0 (N + 1) (fun l => zsum (- N) (N + 1) (fun k => zsum (- L) (L + 1) (fun n => WW a b g L M n * (S_ (L - l) (n - k) u * f l k))))).
  - apply zsum_ext. intros l Hl. destruct (Z_lt_le_dec L l).
    + rewrite zsum_0 by (intros; rewrite S_neg by lia; ring). symmetry. apply zsum_0. intros. apply zsum_0. intros. rewrite S_neg by lia. ring.
    + rewrite (zsum_sub (- N) (N + 1) (- l) (l + 1)) by (lia || (intros m H1 H2; rewrite supp_rot by lia; ring)).
      unfold rot. rewrite (zsum_ext _ _ _ (fun m => zsum (- l) (l + 1) (fun k => WW a b g l m k * S_ (L - l) (M - m) (euler a b g u) * f l k))).
      2: { intros m _. rewrite <- zsum_scal_l. apply zsum_ext. intros. ring. }
      rewrite zsum_swap. rewrite (zsum_sub (- N) (N + 1) (- l) (l + 1)) by (lia || (intros m H1 H2; apply zsum_0; intros; rewrite Hf by lia; ring)).
      apply zsum_ext. intros k Hk. rewrite zsum_scal_r, <- WW_cov by lia. rewrite <- zsum_scal_r. apply zsum_ext. intros. ring.
  - rewrite (zsum_ext _ _ _ (fun l => zsum (- L) (L + 1) (fun n => zsum (- N) (N + 1) (fun k => WW a b g L M n * (S_ (L - l) (n - k) u * f l k))))).
    2: { intros l _. now rewrite zsum_swap. }
    rewrite zsum_swap. apply zsum_ext. intros n _. rewrite <- zsum_scal_l. apply zsum_ext. intros l _. rewrite <- zsum_scal_l. reflexivity.
Qed.
Lemma euler_opp a b g u : euler a b g (vopp u) = vopp (euler a b g u).
Proof. destruct u as [[x y] z]. unfold euler, zrot, yrot, vopp. vsplit; ring. Qed.
Lemma Tout_rot N a b g f u L M : supp f -> (0 <= L <= N)%Z -> (Z.abs M <= L)%Z ->
  Tout N (rotT a b g f) u L M = rotT a b g (Tout N f (euler a b g u)) L M.
Proof.
  intros Hf HL HM. unfold Tout, rotT at 2. rewrite (proj2 (Z.leb_le (Z.abs M) L)) by lia.
  transitivity (zsum 0 (N + 1) (fun l => zsum (- N) (N + 1) (fun j => zsum (- L) (L + 1) (fun k => WW a b g L k M * (S_ (l - L) (j - k) (vopp (euler a b g u)) * f l j))))).
  - apply zsum_ext. intros l Hl. destruct (Z_lt_le_dec l L).
    + rewrite zsum_0 by (intros; rewrite S_neg by lia; ring). symmetry. apply zsum_0. intros. apply zsum_0. intros. rewrite S_neg by lia. ring.
    + rewrite (zsum_sub (- N) (N + 1) (- l) (l + 1)) by (lia || (intros m H1 H2; rewrite supp_rotT by lia; ring)).
      rewrite (zsum_ext _ _ _ (fun m => zsum (- l) (l + 1) (fun j => WW a b g l j m * S_ (l - L) (m - M) (vopp u) * f l j))).
      2: { intros m Hm. unfold rotT. rewrite (proj2 (Z.leb_le (Z.abs m) l)) by lia. rewrite <- zsum_scal_l. apply zsum_ext. intros. ring. }
      rewrite zsum_swap. rewrite (zsum_sub (- N) (N + 1) (- l) (l + 1)) by (lia || (intros m H1 H2; apply zsum_0; intros; rewrite Hf by lia; ring)).
      apply zsum_ext. intros j Hj. rewrite zsum_scal_r, WW_cov, euler_opp by lia. rewrite <- zsum_scal_r. apply zsum_ext. intros. ring.
  - rewrite (zsum_ext _ _ _ (fun l => zsum (- L) (L + 1) (fun n => zsum (- N) (N + 1) (fun k => WW a b g L n M * (S_ (l - L) (k - n) (vopp (euler a b g u)) * f l k))))).
    2: { intros l _. now rewrite zsum_swap. }
    rewrite zsum_swap. apply zsum_ext. intros n _. rewrite <- zsum_scal_l. apply zsum_ext. intros l _. rewrite <- zsum_scal_l. reflexivity.
Qed.

(* ---- product of two matrices: coupling to the top degree ---- *)
Lemma Wp_conv c s p q : (0 <= p)%Z -> (0 <= q)%Z -> forall p' q' J, (0 <= p')%Z -> (0 <= q')%Z ->
  Wp c s (p + p') (q + q') J = zsum 0 (p + q + 1) (fun i => Wp c s p q i * Wp c s p' q' (J - i)).
Proof.
  revert p q. apply (Z2_ind (fun p q => forall p' q' J, (0 <= p')%Z -> (0 <= q')%Z ->
    Wp c s (p + p') (q + q') J = zsum 0 (p + q + 1) (fun i => Wp c s p q i * Wp c s p' q' (J - i)))).
  - intros p' q' J Hp' Hq'. rewrite zsum_first, zsum_empty by lia. rewrite Wp_00. unfold del0. simpl (0 =? 0)%Z.
    rewrite !Z.add_0_l, Z.sub_0_r. ring.
  - intros p q Hp Hq IH p' q' J Hp' Hq'.
    replace (p + 1 + p')%Z with (p + p' + 1)%Z by ring. rewrite !Wp_S1 by lia. unfold lin at 1. rewrite !IH by lia.
    unfold lin. rewrite (zsum_ext 0 (p + 1 + q + 1) _ (fun i => c * (Wp c s p q (i - 1) * Wp c s p' q' (J - i)) + s * (Wp c s p q i * Wp c s p' q' (J - i)))) by (intros; ring).
    rewrite zsum_plus, !zsum_scal_l. f_equal; f_equal.
    + rewrite (zsum_first 0 (p + 1 + q + 1)) by lia. rewrite (Wp_supp c s p q Hp Hq (0 - 1)) by lia. rewrite Cmult_0_l, Cplus_0_l.
      rewrite (zsum_shift 1 0). replace (p + q + 1 + 1)%Z with (p + 1 + q + 1)%Z by ring. apply zsum_ext. intros i Hi. f_equal. f_equal. ring.
    + symmetry. apply zsum_sub; try lia. intros k H1 H2. rewrite Wp_supp by lia. ring.
  - intros p q Hp Hq IH p' q' J Hp' Hq'.
    replace (q + 1 + q')%Z with (q + q' + 1)%Z by ring. rewrite !Wp_S2 by lia. unfold lin at 1. rewrite !IH by lia.
    unfold lin. rewrite (zsum_ext 0 (p + (q + 1) + 1) _ (fun i => (- s) * (Wp c s p q (i - 1) * Wp c s p' q' (J - i)) + c * (Wp c s p q i * Wp c s p' q' (J - i)))) by (intros; ring).
    rewrite zsum_plus, !zsum_scal_l. f_equal; f_equal.
    + rewrite (zsum_first 0 (p + (q + 1) + 1)) by lia. rewrite (Wp_supp c s p q Hp Hq (0 - 1)) by lia. rewrite Cmult_0_l, Cplus_0_l.
      rewrite (zsum_shift 1 0). replace (p + q + 1 + 1)%Z with (p + (q + 1) + 1)%Z by ring. apply zsum_ext. intros i Hi. f_equal. f_equal. ring.
    + symmetry. apply zsum_sub; try lia. intros k H1 H2. rewrite Wp_supp by lia. ring.
Qed.
Lemma WW_prod a b g L l N M j : (Z.abs M <= L)%Z -> (Z.abs j <= l)%Z ->
  WW a b g (L + l) N (M + j) = zsum (- L) (L + 1) (fun K => WW a b g L K M * WW a b g l (N - K) j).
Proof.
  intros HM Hj. unfold WW. set (c := RtoC _). set (s := RtoC _).
  unfold W at 1. replace (L + l + (M + j))%Z with (L + M + (l + j))%Z by ring. replace (L + l - (M + j))%Z with (L - M + (l - j))%Z by ring.
  rewrite (Wp_conv c s (L + M) (L - M)) by lia. rewrite <- zsum_scal_l. rewrite (zsum_shift (- L) 0).
  replace (0 + - L)%Z with (- L)%Z by ring. replace (L + M + (L - M) + 1 + - L)%Z with (L + 1)%Z by ring.
  apply zsum_ext. intros K HK. unfold W. replace (K - - L)%Z with (L + K)%Z by ring.
  replace (L + l + N - (L + K))%Z with (l + (N - K))%Z by ring.
  replace (cexpi (- (a * IZR N + g * IZR (M + j)))) with (cexpi (- (a * IZR K + g * IZR M)) * cexpi (- (a * IZR (N - K) + g * IZR j))); [ring|].
  rewrite <- cexpi_plus. f_equal. rewrite minus_IZR, plus_IZR. ring.
Qed.
Lemma I_euler a b g l n v : (Z.abs n <= l)%Z ->
  I_ l n (euler a b g v) = zsum (- l) (l + 1) (fun m => WW (- g) (- b) (- a) l m n * I_ l m v).
Proof.
  intros Hn. unfold I_, hatQ. rewrite isolid_euler by lia. rewrite <- zsum_scal_r. apply zsum_ext. intros m Hm.
  rewrite DD_adj, DD_WW by lia. rewrite (nrm_gg l n), (nrm_gg l m) by lia. set (k := sqrt _). assert (H1 := gg_pos l n). assert (H2 := gg_pos l m).
  assert (H3 := odd_neq0 l ltac:(lia)).
  replace (RtoC (k * gg l m / (2 * IZR l + 1))) with (RtoC (gg l m / gg l n) * RtoC (k * gg l n / (2 * IZR l + 1))).
  - ring.
  - rewrite <- RtoC_mult. f_equal. field. split; lra.
Qed.
Lemma Tq2Q_rot N a b g f u L M : (0 <= L)%Z -> (Z.abs M <= L)%Z ->
  rotT (- g) (- b) (- a) (Tq2Q N (rot (- g) (- b) (- a) f) u) L M = Tq2Q N f (euler a b g u) L M.
Proof.
  intros HL HM. unfold rotT. rewrite (proj2 (Z.leb_le (Z.abs M) L)) by lia. unfold Tq2Q.
  transitivity (zsum 0 (N + 1) (fun l => zsum (- L) (L + 1) (fun K => zsum (- l) (l + 1) (fun m => zsum (- l) (l + 1) (fun j =>
     sgnC l * f l j * (WW (- g) (- b) (- a) L K M * WW (- g) (- b) (- a) l m j * I_ (L + l) (K + m) u)))))).
  - rewrite zsum_swap. apply zsum_ext. intros K HK. rewrite <- zsum_scal_l. apply zsum_ext. intros l Hl. rewrite <- zsum_scal_l. apply zsum_ext. intros m Hm.
    unfold rot.
    transitivity (zsum (- l) (l + 1) (fun k => WW (- g) (- b) (- a) l m k * f l k) * (WW (- g) (- b) (- a) L K M * sgnC l * I_ (L + l) (K + m) u)); [ring|].
    rewrite <- zsum_scal_r. apply zsum_ext. intros j Hj. ring.
  - apply zsum_ext. intros l Hl.
    rewrite (zsum_ext _ _ _ (fun K => zsum (- l) (l + 1) (fun j => zsum (- l) (l + 1) (fun m =>
     sgnC l * f l j * (WW (- g) (- b) (- a) L K M * WW (- g) (- b) (- a) l m j * I_ (L + l) (K + m) u))))) by (intros K _; now rewrite zsum_swap).
    rewrite zsum_swap. apply zsum_ext. intros j Hj. rewrite I_euler by lia.
    rewrite <- zsum_scal_l.
    rewrite (zsum_ext (- (L + l)) (L + l + 1) _ (fun n => zsum (- L) (L + 1) (fun K => sgnC l * f l j * (WW (- g) (- b) (- a) L K M * WW (- g) (- b) (- a) l (n - K) j * I_ (L + l) n u)))).
    2: { intros n Hn. rewrite WW_prod by lia. rewrite <- zsum_scal_r, <- zsum_scal_l. apply zsum_ext. intros. ring. }
    symmetry. rewrite zsum_swap. apply zsum_ext. intros K HK. rewrite (zsum_shift (- K) (- (L + l))).
    rewrite (zsum_sub _ _ (- l) (l + 1)).
    + apply zsum_ext. intros m Hm. replace (m - - K - K)%Z with m by ring. replace (m - - K)%Z with (K + m)%Z by ring. reflexivity.
    + lia.
    + lia.
    + intros m H1 H2. replace (m - - K - K)%Z with m by ring. rewrite (WW_out _ _ _ l m j) by lia. ring.
Qed.

(* ---- the axis ---- *)
Lemma S_axis k m d : (0 <= k)%Z -> S_ k m (0, 0, d)%R = if (m =? 0)%Z then RtoC (d ^ Z.to_nat k / zfact k) else 0.
Proof.
  intros Hk. unfold S_, solid, tri.
  replace (- (RtoC 0 - Ci * RtoC 0) / RtoC 2) with (RtoC 0) by (apply C_eq; simpl; field).
  replace ((RtoC 0 + Ci * RtoC 0) / RtoC 2) with (RtoC 0) by (apply C_eq; simpl; field).
  rewrite (zsum_single _ _ 0); [|lia|intros j Hj Hn; rewrite (dp_zero j) by lia; ring].
  rewrite dp_0. replace (m + 0)%Z with m by ring. destruct (Z.eqb_spec m 0) as [->|Hm]; [|rewrite (dp_zero m) by lia; ring].
  rewrite dp_0. replace (k - 0 - 2 * 0)%Z with k by ring. rewrite dp_nonneg, cpow_RtoC, RtoC_div by (lia || apply zfact_neq0). ring.
Qed.
Lemma vnorm_axis r : (0 <= r)%R -> vnorm (0, 0, r)%R = r.
Proof. intros H. rewrite vnorm_xyz. replace (0 ^ 2 + 0 ^ 2 + r ^ 2)%R with (r ^ 2)%R by ring. now apply sqrt_pow2. Qed.
Lemma nrm_sq l m : (0 <= l)%Z -> (nrm l m * nrm l m = (2 * IZR l + 1) * zfact (l + m) * zfact (l - m) / (4 * PI))%R.
Proof.
  intros Hl. unfold nrm. apply sqrt_sqrt. assert (H0 : (0 <= IZR l)%R) by (now apply IZR_le). assert (Hp := PI_RGT_0). fpos. apply Rlt_le. posr.
Qed.
Lemma I_axis l m r : (0 <= l)%Z -> (0 < r)%R -> I_ l m (0, 0, r)%R = if (m =? 0)%Z then RtoC (zfact l / (4 * PI * r ^ Z.to_nat (l + 1))) else 0.
Proof.
  intros Hl Hr. unfold I_, hatQ, isolid. rewrite rsolid_S, S_axis by assumption. destruct (Z.eqb_spec m 0) as [->|Hm].
  - rewrite vnorm_axis by lra. rewrite <- RtoC_mult, Cconj_RtoC.
    assert (H1 : (r ^ Z.to_nat (2 * l + 1))%R <> 0%R) by (apply pow_nonzero; lra).
    assert (H2 := odd_neq0 l Hl). assert (Hp := PI_RGT_0).
    rewrite <- RtoC_div, <- RtoC_mult by assumption. f_equal.
    transitivity ((nrm l 0 * nrm l 0) * (r ^ Z.to_nat l / zfact l) / r ^ Z.to_nat (2 * l + 1) / (2 * IZR l + 1))%R; [field; repeat split; try assumption; apply zfact_neq0|].
    rewrite nrm_sq by assumption. replace (l + 0)%Z with l by ring. replace (l - 0)%Z with l by ring.
    replace (Z.to_nat (2 * l + 1)) with (Z.to_nat l + Z.to_nat (l + 1))%nat by lia. rewrite pow_add.
    field. assert (H3 := zfact_neq0 l). repeat split; try assumption; try (apply pow_nonzero); lra.
  - rewrite Cmult_0_r. rewrite Cconj_RtoC. unfold Cdiv. ring.
Qed.
Lemma exp_ln_pow k x : (0 <= k)%Z -> (0 < x)%R -> exp (IZR k * ln x) = (x ^ Z.to_nat k)%R.
Proof. intros Hk Hx. rewrite <- Rpower_pow by assumption. unfold Rpower. f_equal. rewrite INR_IZR_INZ, Z2Nat.id by lia. reflexivity. Qed.
Lemma npsign_abs x : (npsign x * Rabs x = x)%R.
Proof.
  unfold npsign. destruct (Rlt_dec 0 x); [rewrite Rabs_right by lra; ring|]. destruct (Rlt_dec x 0); [rewrite Rabs_left by lra; ring|].
  assert (x = 0)%R by lra. subst. ring.
Qed.
Lemma newt_pows_val dr k : (0 <= k)%Z -> dr <> 0%R -> newt_pows dr k = ((- dr) ^ Z.to_nat k / zfact k)%R.
Proof.
  intros Hk Hd. unfold newt_pows. unfold Rminus. rewrite exp_plus, exp_Ropp, exp_gl, exp_ln_pow by (assumption || now apply Rabs_pos_lt).
  replace (- dr)%R with (- npsign dr * Rabs dr)%R by (rewrite <- (npsign_abs dr) at 3; ring). rewrite Rpow_mult_distr. unfold Rdiv. ring.
Qed.
Lemma npsign_inv x : x <> 0%R -> (npsign x * / Rabs x = / x)%R.
Proof.
  intros Hx. unfold npsign. destruct (Rlt_dec 0 x); [rewrite Rabs_right by lra; ring|]. destruct (Rlt_dec x 0); [rewrite Rabs_left by lra; field; lra|]. lra.
Qed.
Lemma svals_val dr k : (0 <= k)%Z -> dr <> 0%R -> svals dr k = (zfact k / dr ^ Z.to_nat (k + 1))%R.
Proof.
  intros Hk Hd. unfold svals. unfold Rminus. rewrite exp_plus, exp_Ropp, exp_gl.
  replace (IZR k + 1)%R with (IZR (k + 1)) by now rewrite plus_IZR. rewrite exp_ln_pow by (lia || now apply Rabs_pos_lt).
  unfold Rdiv. rewrite <- pow_inv, <- pow_inv. rewrite <- (npsign_inv dr Hd), Rpow_mult_distr. ring.
Qed.
Lemma alphanm_nrm n m : (0 <= n)%Z -> alphanm n m = (sgnR n / (nrm n m * sqrt (4 * PI)))%R.
Proof.
  intros Hn. unfold alphanm, nrm. assert (H0 : (0 <= IZR n)%R) by (now apply IZR_le). assert (Hp := PI_RGT_0).
  fpos; rewrite <- sqrt_mult_alt by (apply Rlt_le; posr). unfold Rdiv at 2. f_equal.
  rewrite <- sqrt_inv. f_equal. fpos. field. repeat split; lra.
Qed.
Lemma betanm_nrm n m : (0 <= n)%Z -> betanm n m = (nrm n m * sqrt (4 * PI) / (2 * IZR n + 1))%R.
Proof.
  intros Hn. unfold betanm, nrm. assert (H0 : (0 <= IZR n)%R) by (now apply IZR_le). assert (Hp := PI_RGT_0).
  fpos; rewrite <- sqrt_mult_alt by (apply Rlt_le; posr).
  replace (2 * IZR n + 1)%R with (sqrt ((2 * IZR n + 1) * (2 * IZR n + 1))) at 3 by (apply sqrt_square; lra).
  rewrite <- sqrt_div_alt by nra. f_equal. field. lra.
Qed.
Lemma sqrt4PI_pos : (0 < sqrt (4 * PI))%R.
Proof. apply sqrt_lt_R0. assert (Hp := PI_RGT_0). lra. Qed.
Lemma sgnR_pow k x : (0 <= k)%Z -> (sgnR k * (- x) ^ Z.to_nat k = x ^ Z.to_nat k)%R.
Proof.
  intros Hk. rewrite <- (Z2Nat.id k) at 1 by lia. generalize (Z.to_nat k). intros n. induction n; [unfold sgnR; simpl; ring|].
  rewrite Nat2Z.inj_succ. unfold Z.succ. rewrite sgnR_add. change (sgnR 1) with (-1)%R. simpl pow.
  transitivity (x * (sgnR (Z.of_nat n) * (- x) ^ n))%R; [ring|]. now rewrite IHn.
Qed.

(* ---- apply_trans_mat ---- *)
Definition coax_loop (E : Z -> cmat) (q : marr) (b : Z) : marr :=
  let L := deg q in
  zfor 1 b (fun m a =>
       setcol (setcol a m (L + m) (fun i => coldot L m (E m) q i (L + m)))
              m (L - m) (fun i => coldot L m (conjm (E m)) q i (L - m))) (setcol (zeros L) 0 L (fun i => coldot L 0 (E 0%Z) q i L)).
Definition cj (m : Z) (z : C) : C := if (m <? 0)%Z then Cconj z else z.
Definition coax_val (E : Z -> cmat) (q : marr) (l m : Z) : C :=
  zsum (Z.abs m) (deg q + 1) (fun k => cj m (E (Z.abs m) (l - Z.abs m)%Z (k - Z.abs m)%Z) * mom q k m).
Lemma coldot_val E q i m : (Z.abs m <= i)%Z ->
  coldot (deg q) (Z.abs m) (fun a b => cj m (E (Z.abs m) a b)) q i (deg q + m) = coax_val E q i m.
Proof.
  intros H. unfold coldot, coax_val. rewrite (zsum_shift (Z.abs m) 0). replace (0 + Z.abs m)%Z with (Z.abs m) by ring.
  replace (deg q + 1 - Z.abs m + Z.abs m)%Z with (deg q + 1)%Z by ring. apply zsum_ext. intros k Hk.
  unfold mom. replace (Z.abs m + (k - Z.abs m))%Z with k by ring. reflexivity.
Qed.
Lemma coax_loop_spec E q b : (0 <= deg q)%Z -> (1 <= b)%Z -> deg (coax_loop E q b) = deg q /\
  forall i m, (0 <= i)%Z -> at_ (coax_loop E q b) i (deg q + m) = if ((Z.abs m <? b) && (Z.abs m <=? i))%bool%Z then coax_val E q i m else 0.
Proof.
  intros HL Hb. unfold coax_loop.
  apply (zfor_ind (fun b a => deg a = deg q /\ forall i m, (0 <= i)%Z -> at_ a i (deg q + m) = if ((Z.abs m <? b) && (Z.abs m <=? i))%bool%Z then coax_val E q i m else 0)); [assumption| |].
  - split; [reflexivity|]. intros i m Hi. unfold setcol. cbn [at_]. rewrite (proj2 (Z.leb_le 0 i)) by lia. cbn [andb].
    destruct (Z.eqb_spec (deg q + m) (deg q)).
    + assert (m = 0)%Z as -> by lia. change (Z.abs 0) with 0%Z. rewrite (proj2 (Z.leb_le 0 i)) by lia. change (0 <? 1)%Z with true. cbn [andb].
      rewrite <- coldot_val by (cbn; lia). unfold cj. change (0 <? 0)%Z with false. cbn [Z.abs]. now rewrite Z.add_0_r.
    + rewrite (proj2 (Z.ltb_ge (Z.abs m) 1)) by lia. reflexivity.
  - intros k a Hk [Hd Ha]. split; [exact Hd|]. intros i m Hi. unfold setcol. cbn [at_ deg].
    destruct (Z.eqb_spec (deg q + m) (deg q - k)) as [E1|E1]; [|destruct (Z.eqb_spec (deg q + m) (deg q + k)) as [E2|E2]].
    + assert (m = - k)%Z as -> by lia. rewrite (Z.abs_opp k), (Z.abs_eq k) by lia. rewrite andb_true_r.
      rewrite (proj2 (Z.ltb_lt k (k + 1))) by lia. cbn [andb]. destruct (Z.leb_spec k i).
      * rewrite <- coldot_val by lia. rewrite Z.abs_opp, Z.abs_eq by lia. unfold cj. rewrite (proj2 (Z.ltb_lt (- k) 0)) by lia. reflexivity.
      * rewrite (proj2 (Z.eqb_neq (deg q + - k) (deg q + k))) by lia. cbn [andb]. rewrite Ha by lia. rewrite Z.abs_opp, (Z.abs_eq k), (proj2 (Z.ltb_ge k k)) by lia. reflexivity.
    + assert (m = k) as -> by lia. rewrite (Z.abs_eq k) by lia. rewrite andb_true_r, andb_false_r.
      rewrite (proj2 (Z.ltb_lt k (k + 1))) by lia. cbn [andb]. destruct (Z.leb_spec k i).
      * rewrite <- coldot_val by lia. rewrite Z.abs_eq by lia. unfold cj. rewrite (proj2 (Z.ltb_ge k 0)) by lia. reflexivity.
      * rewrite Ha by lia. rewrite (Z.abs_eq k), (proj2 (Z.ltb_ge k k)) by lia. reflexivity.
    + rewrite !andb_false_r. rewrite Ha by lia. destruct (Z.ltb_spec (Z.abs m) k), (Z.ltb_spec (Z.abs m) (k + 1)); try lia; reflexivity.
Qed.
Lemma coax_mom E q (b : bool) : (0 <= deg q)%Z ->
  let a := coax_loop E q (deg q + 1) in let q' := if b then fliplr a else a in
  deg q' = deg q /\ holds q' (fun l m => coax_val E q l (if b then - m else m)%Z).
Proof.
  intros HL. destruct (coax_loop_spec E q (deg q + 1) HL ltac:(lia)) as [Hd Ha]. cbv zeta.
  assert (G : forall l m, (0 <= l <= deg q)%Z -> (Z.abs m <= deg q)%Z -> mom (if b then fliplr (coax_loop E q (deg q + 1)) else coax_loop E q (deg q + 1)) l m
     = if (Z.abs m <=? l)%Z then coax_val E q l (if b then - m else m)%Z else 0).
  { intros l m Hl Hm. destruct b; unfold mom, fliplr; cbn [deg at_]; rewrite ?Hd.
    - replace (2 * deg q - (deg q + m))%Z with (deg q + - m)%Z by ring. rewrite Ha, Z.abs_opp, (proj2 (Z.ltb_lt (Z.abs m) (deg q + 1))) by lia. reflexivity.
    - rewrite Ha, (proj2 (Z.ltb_lt (Z.abs m) (deg q + 1))) by lia. reflexivity. }
  assert (Hd' : deg (if b then fliplr (coax_loop E q (deg q + 1)) else coax_loop E q (deg q + 1)) = deg q) by (destruct b; exact Hd).
  split; [exact Hd'|]. split.
  - rewrite Hd'. intros l m Hl Hm. rewrite G, (proj2 (Z.leb_le (Z.abs m) l)) by lia. reflexivity.
  - intros l m Hl Hm. rewrite Hd' in *. rewrite G, (proj2 (Z.leb_gt (Z.abs m) l)) by lia. reflexivity.
Qed.
Lemma atm_mom q efms b : (0 <= deg q)%Z -> mlen efms = (deg q + 1)%Z ->
  exists q', apply_trans_mat q efms b = Ok q' /\ deg q' = deg q /\ holds q' (fun l m => coax_val (mget efms) q l (if b then - m else m)%Z).
Proof.
  intros HL Hl. unfold apply_trans_mat. rewrite Hl. replace (deg q + 1 - 1)%Z with (deg q) by ring. rewrite Z.eqb_refl. cbn [negb].
  eexists. split; [reflexivity|]. apply (coax_mom (mget efms) q b HL).
Qed.
Lemma atmr_mom q efms b : (0 <= deg q)%Z -> mlen efms = (deg q + 1)%Z ->
  exists q', apply_trans_mat_right q efms b = Ok q' /\ deg q' = deg q /\ holds q' (fun l m => coax_val (fun k => ttrans (mget efms k)) q l (if b then - m else m)%Z).
Proof.
  intros HL Hl. unfold apply_trans_mat_right. rewrite Hl. replace (deg q + 1 - 1)%Z with (deg q) by ring. rewrite Z.eqb_refl. cbn [negb].
  eexists. split; [reflexivity|]. apply (coax_mom (fun k => ttrans (mget efms k)) q b HL).
Qed.
Lemma cj_RtoC m x : cj m (RtoC x) = RtoC x.
Proof. unfold cj. rewrite Cconj_RtoC. now destruct (m <? 0)%Z. Qed.
Lemma nrm_abs l m : nrm l (Z.abs m) = nrm l m.
Proof. destruct (Z_le_gt_dec 0 m); [now rewrite Z.abs_eq by lia|]. rewrite Z.abs_neq by lia. apply nrm_opp. Qed.

(* ---- the coaxial matrices on reduced moments ---- *)
Lemma RR_val L d ds : d <> 0%R -> transl_newt_z_RR L d = Ok ds -> mlen ds = (L + 1)%Z /\
  forall m i j, (0 <= m)%Z -> (m <= i)%Z -> (m <= j)%Z -> mget ds m (i - m)%Z (j - m)%Z = S_ (i - j) 0 (0, 0, d)%R * RtoC (nrm i m / nrm j m).
Proof.
  intros Hd. unfold transl_newt_z_RR. rewrite is0_false by assumption. intros E. injection E as <-. split; [reflexivity|].
  intros m i j Hm Hi Hj. cbn [mget]. replace (m + (i - m))%Z with i by ring. replace (m + (j - m))%Z with j by ring.
  unfold toeplitz. destruct (Z.leb_spec (j - m) (i - m)).
  - replace (i - m - (j - m))%Z with (i - j)%Z by ring. rewrite S_axis by lia. change (0 =? 0)%Z with true. cbv iota. rewrite <- RtoC_mult. f_equal.
    rewrite newt_pows_val, !alphanm_nrm by (assumption || lia). assert (H1 := nrm_neq0 i m ltac:(lia)). assert (H2 := nrm_neq0 j m ltac:(lia)).
    assert (H3 := sqrt4PI_pos). assert (H4 : (sgnR i * sgnR i = 1)%R) by (unfold sgnR; destruct (Z.even i); ring).
    assert (H5 : sgnR i <> 0%R) by (intros E; rewrite E in H4; lra).
    assert (H6 := zfact_neq0 (i - j)). assert (H7 := sgnR_pow (i - j) d ltac:(lia)). rewrite sgnR_sub in H7.
    rewrite <- H7. transitivity ((- d) ^ Z.to_nat (i - j) / zfact (i - j) * (nrm i m / nrm j m) * (sgnR i * sgnR i) * sgnR j / sgnR i)%R.
    + rewrite H4. field. repeat split; lra || assumption.
    + field. repeat split; assumption.
  - rewrite S_neg by lia. unfold first_only. rewrite (proj2 (Z.eqb_neq (j - m - (i - m)) 0)) by lia. rewrite Rmult_0_l. ring.
Qed.
Lemma SS_val L d ds : d <> 0%R -> transl_newt_z_SS L d = Ok ds -> mlen ds = (L + 1)%Z /\
  forall m i j, (0 <= m)%Z -> (m <= i)%Z -> (m <= j)%Z -> mget ds m (i - m)%Z (j - m)%Z
    = S_ (j - i) 0 (0, 0, (- d))%R * RtoC (nrm j m / (2 * IZR j + 1) * ((2 * IZR i + 1) / nrm i m)).
Proof.
  intros Hd. unfold transl_newt_z_SS. rewrite is0_false by assumption. intros E. injection E as <-. split; [reflexivity|].
  intros m i j Hm Hi Hj. cbn [mget]. replace (m + (i - m))%Z with i by ring. replace (m + (j - m))%Z with j by ring.
  assert (H1 := nrm_neq0 i m ltac:(lia)). assert (H2 := nrm_neq0 j m ltac:(lia)). assert (H3 := sqrt4PI_pos).
  assert (H4 := odd_neq0 i ltac:(lia)). assert (H5 := odd_neq0 j ltac:(lia)). assert (H6 := zfact_neq0 (j - i)).
  unfold toeplitz. destruct (Z.leb_spec (j - m) (i - m)).
  - replace (i - m - (j - m))%Z with (i - j)%Z by ring. unfold first_only. destruct (Z.eqb_spec (i - j) 0).
    + assert (i = j) as -> by lia. replace (j - j)%Z with 0%Z by ring. rewrite S_axis by lia. change (0 =? 0)%Z with true. cbv iota. rewrite <- RtoC_mult. f_equal.
      rewrite newt_pows_val, !betanm_nrm by (assumption || lia). change (Z.to_nat 0) with 0%nat. simpl pow. assert (H7 := zfact_neq0 0). field. repeat split; lra || assumption.
    + rewrite S_neg by lia. rewrite Rmult_0_l. ring.
  - replace (j - m - (i - m))%Z with (j - i)%Z by ring. rewrite S_axis by lia. change (0 =? 0)%Z with true. cbv iota. rewrite <- RtoC_mult. f_equal.
    rewrite newt_pows_val, !betanm_nrm by (assumption || lia). field. repeat split; lra || assumption.
Qed.
Lemma SR_val L d ds : (0 < d)%R -> transl_newt_z_SR L d = Ok ds -> mlen ds = (L + 1)%Z /\
  forall m i j, (0 <= m)%Z -> (m <= i)%Z -> (m <= j)%Z -> mget ds m (i - m)%Z (j - m)%Z
    = sgnC j * I_ (i + j) 0 (0, 0, d)%R * RtoC ((2 * IZR i + 1) / nrm i m / nrm j m).
Proof.
  intros Hd. unfold transl_newt_z_SR. rewrite is0_false by (intros E; lra). intros E. injection E as <-. split; [reflexivity|].
  intros m i j Hm Hi Hj. cbn [mget]. replace (m + (i - m))%Z with i by ring. replace (m + (j - m))%Z with j by ring.
  assert (H1 := nrm_neq0 i m ltac:(lia)). assert (H2 := nrm_neq0 j m ltac:(lia)). assert (H3 := sqrt4PI_pos).
  assert (H4 := odd_neq0 i ltac:(lia)). assert (Hp := PI_RGT_0).
  assert (E : hankel (L + 1 - m) (fun k => svals d (2 * m + k)) (fun k => svals d (L + m + k)) (i - m) (j - m) = svals d (i + j)).
  { unfold hankel. destruct (Z.ltb_spec (i - m + (j - m)) (L + 1 - m)); f_equal; ring. }
  match goal with |- RtoC (?h * _) = _ => change h with (hankel (L + 1 - m) (fun k => svals d (2 * m + k)) (fun k => svals d (L + m + k)) (i - m) (j - m)) end.
  rewrite E, svals_val, I_axis by (lia || lra). change (0 =? 0)%Z with true. cbv iota. rewrite <- sgnR_C, <- !RtoC_mult. f_equal.
  rewrite alphanm_nrm, betanm_nrm by lia. assert (H5 : (d ^ Z.to_nat (i + j + 1))%R <> 0%R) by (apply pow_nonzero; lra).
  assert (H6 : (sqrt (4 * PI) * sqrt (4 * PI) = 4 * PI)%R) by (apply sqrt_sqrt; lra). set (s4 := sqrt (4 * PI)) in *. clearbody s4. rewrite <- H6. field. repeat split; lra || assumption.
Qed.
Lemma hq_in q l m : (Z.abs m <= l)%Z -> hq q l m = mom q l m / RtoC (nrm l m).
Proof. intros H. unfold hq. now rewrite (proj2 (Z.leb_le (Z.abs m) l)) by lia. Qed.
Lemma hQ_in q l m : (Z.abs m <= l)%Z -> hQ q l m = mom q l m * RtoC (nrm l m / (2 * IZR l + 1)).
Proof. intros H. unfold hQ. now rewrite (proj2 (Z.leb_le (Z.abs m) l)) by lia. Qed.
Lemma Tin_axis N f d L M : (0 <= L <= N)%Z -> (Z.abs M <= L)%Z -> supp f ->
  Tin N f (0, 0, d)%R L M = zsum (Z.abs M) (N + 1) (fun l => S_ (L - l) 0 (0, 0, d)%R * f l M).
Proof.
  intros HL HM Hf. unfold Tin. rewrite (zsum_sub 0 (N + 1) (Z.abs M) (N + 1)) by (lia || (intros l H1 H2; apply zsum_0; intros m Hm;
    destruct (Z_lt_le_dec (L - l) 0); [rewrite S_neg by lia; ring|]; rewrite S_axis by lia; destruct (Z.eqb_spec (M - m) 0); [|ring]; rewrite Hf by lia; ring)).
  apply zsum_ext. intros l Hl. rewrite (zsum_single _ _ M); [|lia|].
  - now rewrite Z.sub_diag.
  - intros m Hm Hn. destruct (Z_lt_le_dec (L - l) 0); [rewrite S_neg by lia; ring|]. rewrite S_axis, (proj2 (Z.eqb_neq (M - m) 0)) by lia. ring.
Qed.
Lemma RR_holds q d : (0 <= deg q)%Z -> d <> 0%R -> exists ds q', transl_newt_z_RR (deg q) d = Ok ds /\ apply_trans_mat q ds false = Ok q' /\
  deg q' = deg q /\ holds q' (fun L M => RtoC (nrm L M) * Tin (deg q) (hq q) (0, 0, d)%R L M).
Proof.
  intros HL Hd. destruct (transl_newt_z_RR (deg q) d) as [ds|] eqn:E; [|unfold transl_newt_z_RR in E; rewrite is0_false in E by assumption; discriminate].
  destruct (RR_val _ _ _ Hd E) as [Hl Hv]. destruct (atm_mom q ds false HL Hl) as (q' & E' & D' & H'). exists ds, q'.
  split; [reflexivity|]. split; [exact E'|]. split; [exact D'|]. eapply holds_deg_ext; [|exact H']. rewrite D'. intros L M HL' HM. cbv beta iota.
  rewrite Tin_axis by (assumption || lia || apply supp_hq). rewrite <- zsum_scal_l. unfold coax_val. apply zsum_ext. intros l Hl'.
  rewrite Hv, hq_in by lia. rewrite !nrm_abs.
  destruct (Z_lt_le_dec (L - l) 0).
  - rewrite S_neg by lia. rewrite Cmult_0_l. rewrite (cj_RtoC M 0). ring.
  - rewrite S_axis by lia. change (0 =? 0)%Z with true. cbv iota. rewrite <- RtoC_mult, cj_RtoC.
    rewrite RtoC_mult, (RtoC_div (nrm L M)) by (apply nrm_neq0; lia). field. apply nrmC_neq0. lia.
Qed.
Lemma Tout_axis N f d L M : (0 <= L <= N)%Z -> (Z.abs M <= L)%Z -> supp f ->
  Tout N f (0, 0, d)%R L M = zsum (Z.abs M) (N + 1) (fun l => S_ (l - L) 0 (0, 0, - d)%R * f l M).
Proof.
  intros HL HM Hf. assert (E : vopp (0, 0, d)%R = (0, 0, - d)%R) by (unfold vopp; vsplit; ring). unfold Tout. rewrite E.
  rewrite (zsum_sub 0 (N + 1) (Z.abs M) (N + 1)) by (lia || (intros l H1 H2; apply zsum_0; intros m Hm; rewrite S_neg by lia; ring)).
  apply zsum_ext. intros l Hl. rewrite (zsum_single _ _ M); [|lia|].
  - now rewrite Z.sub_diag.
  - intros m Hm Hn. destruct (Z_lt_le_dec (l - L) 0); [rewrite S_neg by lia; ring|]. rewrite S_axis, (proj2 (Z.eqb_neq (m - M) 0)) by lia. ring.
Qed.
Lemma SS_holds q d : (0 <= deg q)%Z -> d <> 0%R -> exists ds q', transl_newt_z_SS (deg q) d = Ok ds /\ apply_trans_mat q ds false = Ok q' /\
  deg q' = deg q /\ holds q' (fun L M => RtoC ((2 * IZR L + 1) / nrm L M) * Tout (deg q) (hQ q) (0, 0, d)%R L M).
Proof.
  intros HL Hd. destruct (transl_newt_z_SS (deg q) d) as [ds|] eqn:E; [|unfold transl_newt_z_SS in E; rewrite is0_false in E by assumption; discriminate].
  destruct (SS_val _ _ _ Hd E) as [Hl Hv]. destruct (atm_mom q ds false HL Hl) as (q' & E' & D' & H'). exists ds, q'.
  split; [reflexivity|]. split; [exact E'|]. split; [exact D'|]. eapply holds_deg_ext; [|exact H']. rewrite D'. intros L M HL' HM. cbv beta iota.
  rewrite Tout_axis by (assumption || lia || apply supp_hQ). rewrite <- zsum_scal_l. unfold coax_val. apply zsum_ext. intros l Hl'.
  rewrite Hv, hQ_in by lia. rewrite !nrm_abs.
  destruct (Z_lt_le_dec (l - L) 0).
  - rewrite S_neg by lia. rewrite Cmult_0_l. rewrite (cj_RtoC M 0). ring.
  - rewrite S_axis by lia. change (0 =? 0)%Z with true. cbv iota. rewrite <- RtoC_mult, cj_RtoC.
    rewrite !RtoC_mult. ring.
Qed.
Lemma SR_holds q d : (0 <= deg q)%Z -> (0 < d)%R -> exists ds q', transl_newt_z_SR (deg q) d = Ok ds /\ apply_trans_mat q ds true = Ok q' /\
  deg q' = deg q /\ holds q' (fun L M => RtoC ((2 * IZR L + 1) / nrm L M) * Tq2Q (deg q) (hq q) (0, 0, d)%R L M).
Proof.
  intros HL Hd. destruct (transl_newt_z_SR (deg q) d) as [ds|] eqn:E; [|unfold transl_newt_z_SR in E; rewrite is0_false in E by (intros ?; lra); discriminate].
  destruct (SR_val _ _ _ Hd E) as [Hl Hv]. destruct (atm_mom q ds true HL Hl) as (q' & E' & D' & H'). exists ds, q'.
  split; [reflexivity|]. split; [exact E'|]. split; [exact D'|]. eapply holds_deg_ext; [|exact H']. rewrite D'. intros L M HL' HM. cbv beta iota.
  unfold Tq2Q. rewrite <- zsum_scal_l. unfold coax_val. rewrite Z.abs_opp.
  rewrite (zsum_sub 0 (deg q + 1) (Z.abs M) (deg q + 1)).
  - apply zsum_ext. intros l Hl'. rewrite (zsum_single _ _ (- M)); [|lia|].
    + rewrite Hv, hq_in by lia. rewrite !nrm_abs, nrm_opp. replace (M + - M)%Z with 0%Z by ring.
      rewrite I_axis by (lia || lra). change (0 =? 0)%Z with true. cbv iota. rewrite <- sgnR_C, <- !RtoC_mult, cj_RtoC.
      assert (H1 := nrm_neq0 L M ltac:(lia)). assert (H2 := nrm_neq0 l M ltac:(lia)).
      rewrite (RtoC_div (IZR 2 * IZR L + 1)) by assumption. rewrite !RtoC_mult. rewrite (RtoC_div _ (nrm l M)), (RtoC_div _ (nrm L M)) by assumption.
      field. split; now apply RtoC_neq0.
    + intros m Hm Hn. rewrite I_axis, (proj2 (Z.eqb_neq (M + m) 0)) by (lia || lra). ring.
  - lia.
  - lia.
  - intros l H1 H2. rewrite zsum_0; [ring|]. intros m Hm. rewrite I_axis, (proj2 (Z.eqb_neq (M + m) 0)) by (lia || lra). ring.
Qed.

(* ---- rotating reduced moments ---- *)
Lemma Ds_all q a b g : (1 <= deg q)%Z -> exists ds, wignerDl (deg q) a b g = Ok ds /\ mlen ds = (deg q + 1)%Z /\ forall p, deg p = deg q -> forall ct,
   deg (rotate_qlm_Ds p ds ct) = deg p /\
   (forall l m, (0 <= l <= deg q)%Z -> (Z.abs m <= l)%Z -> mom (rotate_qlm_Ds p ds ct) l m = act (fun l i j => if ct then Cconj (DD a b g l j i) else DD a b g l i j) p l m)
   /\ (forall l m, (0 <= l <= deg q)%Z -> (l < Z.abs m)%Z -> mom (rotate_qlm_Ds p ds ct) l m = mom p l m).
Proof.
  intros HL. destruct (wignerDl_DD (deg q) a b g HL) as (ds & E & Hl & HD). exists ds. split; [exact E|]. split; [exact Hl|].
  intros p Hp ct. destruct (Ds_mom p ds ct (DD a b g)) as (D1 & A1 & B1); [lia|lia|rewrite Hp; exact HD|]. cbv zeta in *. rewrite Hp in *.
  split; [exact D1|]. split; [|intros; apply B1; lia]. intros l m Hl' Hm. destruct (Z.eq_dec l 0) as [->|]; [|apply A1; lia].
  rewrite B1 by lia. replace m with 0%Z by lia. unfold act. rewrite zsum_first, zsum_empty by lia. simpl (- 0)%Z. rewrite DD_0, Cconj_RtoC.
  destruct ct; ring.
Qed.
Lemma hq_Ds q a b g ds p (ct : bool) l m : (1 <= deg q)%Z -> wignerDl (deg q) a b g = Ok ds -> deg p = deg q -> (0 <= l <= deg q)%Z ->
  hq (rotate_qlm_Ds p ds ct) l m = (if ct then rot (- g) (- b) (- a) (hq p) l m else rot a b g (hq p) l m).
Proof.
  intros HL E Hp Hl. destruct (Ds_all q a b g HL) as (ds' & E' & _ & H). rewrite E in E'. injection E' as <-.
  destruct (H p Hp ct) as (D1 & A1 & B1). destruct (Z_lt_le_dec l (Z.abs m)).
  - rewrite (supp_hq _ l m) by lia. destruct ct; now rewrite supp_rot by lia.
  - rewrite hq_in, A1 by lia. unfold act, Cdiv, rot. rewrite <- zsum_scal_r. destruct ct; apply zsum_ext; intros k Hk.
    + rewrite DD_adj, DD_WW, hq_in by lia. rewrite !nrm_gg by lia. set (s := sqrt _). assert (H1 := gg_pos l m). assert (H2 := gg_pos l k).
      assert (Hs : (0 < s)%R) by (apply sqrt_lt_R0; assert (H0 : (0 <= IZR l)%R) by (apply IZR_le; lia); assert (Hpi := PI_RGT_0); posr).
      rewrite !RtoC_mult, RtoC_div by lra. field. repeat split; apply RtoC_neq0; lra.
    + rewrite DD_WW, hq_in by lia. rewrite !nrm_gg by lia. set (s := sqrt _). assert (H1 := gg_pos l m). assert (H2 := gg_pos l k).
      assert (Hs : (0 < s)%R) by (apply sqrt_lt_R0; assert (H0 : (0 <= IZR l)%R) by (apply IZR_le; lia); assert (Hpi := PI_RGT_0); posr).
      rewrite !RtoC_mult, RtoC_div by lra. field. repeat split; apply RtoC_neq0; lra.
Qed.
Lemma DD_T a b g l n m : DD a b g l n m = DD g (- b) a l m n.
Proof.
  rewrite <- (Cconj_conj (DD a b g l n m)), DD_adj, DD_conj. now rewrite !Ropp_involutive.
Qed.
Lemma hQ_Ds q a b g ds p (ct : bool) l m : (1 <= deg q)%Z -> wignerDl (deg q) a b g = Ok ds -> deg p = deg q -> (0 <= l <= deg q)%Z ->
  hQ (rotate_qlm_Ds p ds ct) l m = (if ct then rotT (- a) b (- g) (hQ p) l m else rotT g (- b) a (hQ p) l m).
Proof.
  intros HL E Hp Hl. destruct (Ds_all q a b g HL) as (ds' & E' & _ & H). rewrite E in E'. injection E' as <-.
  destruct (H p Hp ct) as (D1 & A1 & B1). destruct (Z_lt_le_dec l (Z.abs m)).
  - rewrite (supp_hQ _ l m) by lia. destruct ct; now rewrite supp_rotT by lia.
  - rewrite hQ_in, A1 by lia. unfold act, rotT. rewrite (proj2 (Z.leb_le (Z.abs m) l)) by lia. rewrite <- zsum_scal_r.
    assert (Ho := odd_neq0 l ltac:(lia)).
    assert (G : forall x y k, (Z.abs k <= l)%Z -> RtoC (gg l k / gg l m) * x * y * RtoC (nrm l m / (2 * IZR l + 1)) = x * (y * RtoC (nrm l k / (2 * IZR l + 1)))).
    { intros x y k Hk. rewrite (nrm_gg l m), (nrm_gg l k) by lia. set (s := sqrt _). assert (H1 := gg_pos l m).
      transitivity (x * y * RtoC (gg l k / gg l m * (s * gg l m / (2 * IZR l + 1)))); [rewrite RtoC_mult; ring|].
      replace (gg l k / gg l m * (s * gg l m / (2 * IZR l + 1)))%R with (s * gg l k / (2 * IZR l + 1))%R by (field; split; lra). ring. }
    destruct ct; apply zsum_ext; intros k Hk.
    + rewrite DD_conj, DD_WW, hQ_in by lia. now rewrite G by lia.
    + rewrite DD_T, DD_WW, hQ_in by lia. now rewrite G by lia.
Qed.

(* ---- the general direction ---- *)
Lemma euler_axis t : vnorm t <> 0%R -> euler (tphi t) (ttheta t) (tphi t) (0, 0, vnorm t)%R = t.
Proof.
  intros Ht. destruct t as [[x y] z]. unfold tphi, ttheta. rewrite vnorm_xyz in *.
  destruct (spherical_of_cartesian x y z Ht) as (B & Ex & Ey & Ez).
  destruct (pymod_2PI (arctan2 y x)) as [E3 E4]. cbv zeta in *. rewrite E3 in Ex. rewrite E4 in Ey.
  unfold euler, zrot, yrot. set (r := sqrt _) in *. set (th := acos _) in *. set (ph := arctan2 y x) in *. clearbody th ph. clearbody r.
  vsplit; nra.
Qed.
Lemma on_axis_true t : vnorm t <> 0%R -> on_axis (vnorm t) t = true -> t = (0, 0, vnorm t)%R /\ (0 < vnorm t)%R.
Proof.
  intros Ht. destruct t as [[x y] z]. unfold on_axis, is0. destruct (Req_EM_T (vnorm (x, y, z) - z) 0) as [E|]; [|discriminate]. intros _.
  assert (Hn : (0 <= vnorm (x, y, z))%R) by (rewrite vnorm_xyz; apply sqrt_pos).
  assert (E2 : (vnorm (x, y, z) * vnorm (x, y, z) = x ^ 2 + y ^ 2 + z ^ 2)%R) by (rewrite vnorm_xyz; apply sqrt_sqrt; nra).
  assert (Hz : z = vnorm (x, y, z)) by lra. assert (Hxy : (x * x + y * y = 0)%R) by (rewrite <- Hz in E2 at 1 2; nra).
  assert (x = 0)%R by nra. assert (y = 0)%R by nra. split; [|lra]. vsplit; assumption.
Qed.
Lemma vnorm_pos t : vnorm t <> 0%R -> (0 < vnorm t)%R.
Proof. intros H. destruct t as [[x y] z]. rewrite vnorm_xyz in *. assert (H1 := sqrt_pos (x ^ 2 + y ^ 2 + z ^ 2)). lra. Qed.
Lemma holds_hq q' F : (forall l m, (0 <= l <= deg q')%Z -> (Z.abs m <= l)%Z -> hq q' l m = F l m) -> corners0 q' ->
  holds q' (fun L M => RtoC (nrm L M) * F L M).
Proof.
  intros H Hc. split; [|exact Hc]. intros l m Hl Hm. rewrite <- H, hq_in by lia. field. apply nrmC_neq0. lia.
Qed.
Lemma hq_hold q' F l m : (0 <= l <= deg q')%Z -> (Z.abs m <= l)%Z -> holds q' (fun L M => RtoC (nrm L M) * F L M) -> hq q' l m = F l m.
Proof. intros Hl Hm [H _]. rewrite hq_in, H by lia. field. apply nrmC_neq0. lia. Qed.
Lemma holds_hQ q' F : (forall l m, (0 <= l <= deg q')%Z -> (Z.abs m <= l)%Z -> hQ q' l m = F l m) -> corners0 q' ->
  holds q' (fun L M => RtoC ((2 * IZR L + 1) / nrm L M) * F L M).
Proof.
  intros H Hc. split; [|exact Hc]. intros l m Hl Hm. rewrite <- H, hQ_in by lia.
  rewrite !RtoC_div by ((apply nrm_neq0; lia) || (apply odd_neq0; lia)).
  field. split; [apply RtoC_neq0, odd_neq0; lia|apply nrmC_neq0; lia].
Qed.
Lemma corners_Ds q a b g ds p ct : (1 <= deg q)%Z -> wignerDl (deg q) a b g = Ok ds -> deg p = deg q -> corners0 p ->
  deg (rotate_qlm_Ds p ds ct) = deg q /\ corners0 (rotate_qlm_Ds p ds ct).
Proof.
  intros HL E Hp Hc. destruct (Ds_all q a b g HL) as (ds' & E' & _ & H). rewrite E in E'. injection E' as <-.
  destruct (H p Hp ct) as (D1 & A1 & B1). split; [congruence|]. intros l m Hl Hm. rewrite D1 in *. rewrite B1 by lia. apply Hc; lia.
Qed.
Lemma deg_Ds q a b g ds p ct : (1 <= deg q)%Z -> wignerDl (deg q) a b g = Ok ds -> deg p = deg q -> deg (rotate_qlm_Ds p ds ct) = deg q.
Proof.
  intros HL E Hp. destruct (Ds_all q a b g HL) as (ds' & E' & _ & H). rewrite E in E'. injection E' as <-.
  destruct (H p Hp ct) as (D1 & _). congruence.
Qed.
Lemma rec_qlm_holds q t : (0 <= deg q)%Z -> vnorm t <> 0%R -> (1 <= deg q)%Z \/ on_axis (vnorm t) t = true ->
  exists q', rec_translate_qlm q t = Ok q' /\ deg q' = deg q /\ holds q' (fun L M => RtoC (nrm L M) * Tin (deg q) (hq q) t L M).
Proof.
  intros HL Ht Hd. unfold rec_translate_qlm. rewrite is0_false by assumption.
  destruct (on_axis (vnorm t) t) eqn:Eax.
  - destruct (on_axis_true t Ht Eax) as [Et Hr]. destruct (RR_holds q (vnorm t) HL Ht) as (ds & q' & E1 & E2 & D & H).
    rewrite E1. cbn [bind]. rewrite E2. exists q'. split; [reflexivity|]. split; [exact D|]. rewrite Et. exact H.
  - destruct Hd as [Hd|Hd]; [|discriminate]. set (ph := tphi t). set (th := ttheta t).
    destruct (Ds_all q (- ph) (- th) (- ph) Hd) as (ds & E & _ & _).
    assert (D1 : deg (rotate_qlm_Ds q ds false) = deg q) by (eapply deg_Ds; eauto).
    destruct (RR_holds (rotate_qlm_Ds q ds false) (vnorm t) ltac:(lia) Ht) as (rr & q2 & E1 & E2 & D2 & H2). rewrite D1 in *.
    rewrite E1. cbn [bind]. rewrite E. cbn [bind]. rewrite E2. cbn [bind]. eexists. split; [reflexivity|].
    destruct (corners_Ds q _ _ _ ds q2 true Hd E D2 (proj2 H2)) as [D3 C3]. split; [exact D3|]. apply holds_hq; [|exact C3].
    rewrite D3. intros l m Hl Hm. rewrite (hq_Ds q _ _ _ ds q2 true l m Hd E D2 Hl). cbv iota.
    rewrite (rot_ext _ _ _ _ (Tin (deg q) (rot (- ph) (- th) (- ph) (hq q)) (0, 0, vnorm t)%R)).
    + rewrite <- Tin_rot by (apply supp_rot || lia). rewrite !Ropp_involutive. unfold ph, th. rewrite euler_axis by assumption.
      apply Tin_ext. intros l' m' Hl'. destruct (Z_lt_le_dec l' (Z.abs m')); [now rewrite supp_rot, supp_hq by lia|].
      apply rot_rot. lia.
    + intros k Hk. rewrite (hq_hold q2 (Tin (deg q) (hq (rotate_qlm_Ds q ds false)) (0, 0, vnorm t)%R)) by (assumption || lia || rewrite D2; lia).
      apply Tin_ext. intros l' m' Hl'. apply (hq_Ds q _ _ _ ds q false); assumption || reflexivity.
Qed.
Lemma rec_Qlmb_holds Q t : (0 <= deg Q)%Z -> vnorm t <> 0%R -> (1 <= deg Q)%Z \/ on_axis (vnorm t) t = true ->
  exists q', rec_translate_Qlmb Q t = Ok q' /\ deg q' = deg Q /\ holds q' (fun L M => RtoC ((2 * IZR L + 1) / nrm L M) * Tout (deg Q) (hQ Q) t L M).
Proof.
  intros HL Ht Hd. unfold rec_translate_Qlmb. rewrite is0_false by assumption.
  destruct (on_axis (vnorm t) t) eqn:Eax.
  - destruct (on_axis_true t Ht Eax) as [Et Hr]. destruct (SS_holds Q (vnorm t) HL Ht) as (ds & q' & E1 & E2 & D & H).
    rewrite E1. cbn [bind]. rewrite E2. exists q'. split; [reflexivity|]. split; [exact D|]. rewrite Et. exact H.
  - destruct Hd as [Hd|Hd]; [|discriminate]. set (ph := tphi t). set (th := ttheta t).
    destruct (Ds_all Q ph (- th) ph Hd) as (ds & E & _ & _).
    assert (D1 : deg (rotate_qlm_Ds Q ds false) = deg Q) by (eapply deg_Ds; eauto).
    destruct (SS_holds (rotate_qlm_Ds Q ds false) (vnorm t) ltac:(lia) Ht) as (rr & q2 & E1 & E2 & D2 & H2). rewrite D1 in *.
    rewrite E1. cbn [bind]. rewrite E. cbn [bind]. rewrite E2. cbn [bind]. eexists. split; [reflexivity|].
    destruct (corners_Ds Q _ _ _ ds q2 true Hd E D2 (proj2 H2)) as [D3 C3]. split; [exact D3|]. apply holds_hQ; [|exact C3].
    rewrite D3. intros l m Hl Hm. rewrite (hQ_Ds Q _ _ _ ds q2 true l m Hd E D2 Hl). cbv iota.
    rewrite (rotT_ext _ _ _ _ (rotT ph th ph (Tout (deg Q) (hQ Q) t))).
    + now rewrite (rotT_rotT ph th ph) by lia.
    + intros k Hk. rewrite (hQ_hold q2 (Tout (deg Q) (hQ (rotate_qlm_Ds Q ds false)) (0, 0, vnorm t)%R)) by (assumption || lia || rewrite D2; lia).
      rewrite (Tout_ext _ _ (rotT ph th ph (hQ Q))).
      * rewrite Tout_rot by (apply supp_hQ || lia). unfold ph, th. now rewrite euler_axis by assumption.
      * intros l' m' Hl'. rewrite (hQ_Ds Q _ _ _ ds Q false l' m' Hd E eq_refl Hl'). cbv iota. now rewrite Ropp_involutive.
Qed.
Lemma Tq2Q_ext N f g t L M : (forall l m, (0 <= l <= N)%Z -> f l m = g l m) -> Tq2Q N f t L M = Tq2Q N g t L M.
Proof. intros H. apply zsum_ext. intros l Hl. apply zsum_ext. intros m Hm. now rewrite H by lia. Qed.
Lemma rec_q2Q_holds q t : (0 <= deg q)%Z -> vnorm t <> 0%R -> (1 <= deg q)%Z \/ on_axis (vnorm t) t = true ->
  exists q', rec_translate_q2Q q t = Ok q' /\ deg q' = deg q /\ holds q' (fun L M => RtoC ((2 * IZR L + 1) / nrm L M) * Tq2Q (deg q) (hq q) t L M).
Proof.
  intros HL Ht Hd. unfold rec_translate_q2Q. rewrite is0_false by assumption. assert (Hp := vnorm_pos t Ht).
  destruct (on_axis (vnorm t) t) eqn:Eax.
  - destruct (on_axis_true t Ht Eax) as [Et Hr]. destruct (SR_holds q (vnorm t) HL Hp) as (ds & q' & E1 & E2 & D & H).
    rewrite E1. cbn [bind]. rewrite E2. exists q'. split; [reflexivity|]. split; [exact D|]. rewrite Et. exact H.
  - destruct Hd as [Hd|Hd]; [|discriminate]. set (ph := tphi t). set (th := ttheta t).
    destruct (Ds_all q (- ph) (- th) (- ph) Hd) as (ds & E & _ & _). destruct (Ds_all q ph (- th) ph Hd) as (ds2 & E' & _ & _).
    assert (D1 : deg (rotate_qlm_Ds q ds false) = deg q) by (eapply deg_Ds; eauto).
    destruct (SR_holds (rotate_qlm_Ds q ds false) (vnorm t) ltac:(lia) Hp) as (rr & q2 & E1 & E2 & D2 & H2). rewrite D1 in *.
    rewrite E1. cbn [bind]. rewrite E. cbn [bind]. rewrite E2. cbn [bind]. rewrite E'. cbn [bind]. eexists. split; [reflexivity|].
    destruct (corners_Ds q _ _ _ ds2 q2 true Hd E' D2 (proj2 H2)) as [D3 C3]. split; [exact D3|]. apply holds_hQ; [|exact C3].
    rewrite D3. intros l m Hl Hm. rewrite (hQ_Ds q _ _ _ ds2 q2 true l m Hd E' D2 Hl). cbv iota.
    rewrite (rotT_ext _ _ _ _ (Tq2Q (deg q) (rot (- ph) (- th) (- ph) (hq q)) (0, 0, vnorm t)%R)).
    + rewrite (Tq2Q_rot (deg q) ph th ph) by lia. unfold ph, th. now rewrite euler_axis by assumption.
    + intros k Hk. rewrite (hQ_hold q2 (Tq2Q (deg q) (hq (rotate_qlm_Ds q ds false)) (0, 0, vnorm t)%R)) by (assumption || lia || rewrite D2; lia).
      apply Tq2Q_ext. intros l' m' Hl'. apply (hq_Ds q _ _ _ ds q false); assumption || reflexivity.
Qed.
