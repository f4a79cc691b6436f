(* Proofs about glibShapes.py: grids, renormalisation, polar angles *)
From Verif Require Import GlibShapes PointSpec MomentSpec Qlm MathSpec Solid.
From Coq Require Import Reals List ZArith Bool Lia Lra.
Import ListNotations.
Open Scope R_scope.

Lemma rle_iff a b : rle a b = true <-> a <= b.
Proof. unfold rle. destruct (Rle_dec a b); split; intros; (assumption || reflexivity || discriminate || contradiction). Qed.
Lemma rlt_iff a b : rlt a b = true <-> a < b.
Proof. unfold rlt. destruct (Rlt_dec a b); split; intros; (assumption || reflexivity || discriminate || contradiction). Qed.
Lemma rlt_no a b : rlt a b = false <-> b <= a.
Proof. unfold rlt. destruct (Rlt_dec a b); split; intros; (discriminate || lra || reflexivity). Qed.
Lemma is0_no x : x <> 0 -> is0 x = false.
Proof. unfold is0. destruct (Req_EM_T x 0); [contradiction|reflexivity]. Qed.
Lemma is0_yes x : x = 0 -> is0 x = true.
Proof. unfold is0. destruct (Req_EM_T x 0); [reflexivity|contradiction]. Qed.
Lemma no_cells_pos n : (0 < n)%nat -> no_cells n = false.
Proof. intros. destruct n; [lia|reflexivity]. Qed.

(* ---- cells ---- *)
Lemma cell_centre n s c i : (0 < n)%nat -> cell n s i + c = (c - INR n * s / 2) + (INR i + 1 / 2) * s.
Proof. intros. unfold cell. field. Qed.
Lemma cell_in a b n f : (0 < n)%nat -> (forall i, f i = cell n ((b - a) / INR n) i + (a + b) / 2) -> forall x, (exists i, (i < n)%nat /\ x = f i) <-> centre a b n x.
Proof.
  intros Hn Hf x. assert (HN : INR n <> 0) by (apply not_0_INR; lia).
  split; intros (i & Hi & ->); exists i; (split; [exact Hi|]); rewrite Hf, cell_centre by assumption; field; assumption.
Qed.
Lemma centre_range a b n x : (0 < n)%nat -> a < b -> centre a b n x -> a < x < b.
Proof.
  intros Hn Hab (i & Hi & ->). assert (HN : 0 < INR n) by (apply lt_0_INR; lia). assert (Hp := pos_INR i). assert (Hq : INR i + 1 <= INR n) by (rewrite <- S_INR; apply le_INR; lia).
  assert (Hs : 0 < (b - a) / INR n) by (apply Rdiv_lt_0_compat; lra). assert (E : (b - a) = (b - a) / INR n * INR n) by (field; lra). nra.
Qed.
Lemma in_grid nx ny nz fx fy fz v : In v (grid nx ny nz fx fy fz) <->
  let '(x, y, z) := v in (exists i, (i < nx)%nat /\ x = fx i) /\ (exists i, (i < ny)%nat /\ y = fy i) /\ (exists i, (i < nz)%nat /\ z = fz i).
Proof.
  destruct v as [[x y] z]. unfold grid. rewrite in_flat_map. split.
  - intros (k & Hk & H). apply in_flat_map in H. destruct H as (l & Hl & H). apply in_map_iff in H. destruct H as (m & E & Hm). injection E as <- <- <-.
    apply in_seq in Hk, Hl, Hm. split; [exists m|split; [exists l|exists k]]; (split; [lia|reflexivity]).
  - intros ((m & Hm & ->) & (l & Hl & ->) & (k & Hk & ->)). exists k. split; [apply in_seq; lia|]. apply in_flat_map. exists l. split; [apply in_seq; lia|].
    apply in_map_iff. exists m. split; [reflexivity|apply in_seq; lia].
Qed.
Definition injn (n : nat) (f : nat -> R) : Prop := forall i j, (i < n)%nat -> (j < n)%nat -> f i = f j -> i = j.
Lemma nodup_flat {A} (f : nat -> list A) n : (forall i, (i < n)%nat -> NoDup (f i)) -> (forall i j v, (i < n)%nat -> (j < n)%nat -> In v (f i) -> In v (f j) -> i = j) -> NoDup (flat_map f (seq 0 n)).
Proof.
  induction n as [|n IH]; intros H1 H2; [constructor|]. rewrite seq_S, flat_map_app. cbn [flat_map plus]. rewrite app_nil_r.
  assert (K : forall (a b : list A), NoDup a -> NoDup b -> (forall v, In v a -> In v b -> False) -> NoDup (a ++ b)).
  { induction a as [|x a IHa]; intros b Ha Hb Hd; [assumption|]. inversion Ha; subst. cbn [app]. constructor.
    - rewrite in_app_iff. intros [K|K]; [contradiction|]. apply (Hd x); [now left|assumption].
    - apply IHa; [assumption|assumption|]. intros v V1 V2. apply (Hd v); [now right|assumption]. }
  apply K; [apply IH; [intros; apply H1; lia|intros i j v Hi Hj; apply H2; lia]|apply H1; lia|].
  intros v V1 V2. apply in_flat_map in V1. destruct V1 as (i & Hi & V1). apply in_seq in Hi. assert (i = n) by (apply (H2 i n v); (assumption || lia)). lia.
Qed.
Lemma nodup_mapseq {A} (f : nat -> A) n : (forall i j, (i < n)%nat -> (j < n)%nat -> f i = f j -> i = j) -> NoDup (map f (seq 0 n)).
Proof.
  intros H. assert (E : map f (seq 0 n) = flat_map (fun i => f i :: nil) (seq 0 n)) by (clear H; generalize (seq 0 n); induction l as [|a l IHl]; [reflexivity|cbn; now rewrite IHl]).
  rewrite E. apply nodup_flat; [intros; constructor; [now intros []|constructor]|]. intros i j v Hi Hj [<-|[]] [E'|[]]. now apply H.
Qed.
Lemma grid_nodup nx ny nz fx fy fz : injn nx fx -> injn ny fy -> injn nz fz -> NoDup (grid nx ny nz fx fy fz).
Proof.
  intros Hx Hy Hz. unfold grid. apply nodup_flat.
  - intros k Hk. apply nodup_flat.
    + intros l Hl. apply nodup_mapseq. intros i j Hi Hj [= E]. now apply Hx.
    + intros i j v Hi Hj V1 V2. apply in_map_iff in V1, V2. destruct V1 as (m & <- & _). destruct V2 as (m' & [= _ E] & _). symmetry in E. now apply Hy.
  - intros i j v Hi Hj V1 V2. apply in_flat_map in V1, V2. destruct V1 as (l & _ & V1). destruct V2 as (l' & _ & V2).
    apply in_map_iff in V1, V2. destruct V1 as (m & <- & _). destruct V2 as (m' & [= _ _ E] & _). symmetry in E. now apply Hz.
Qed.
Lemma cell_inj n s c : s <> 0 -> injn n (fun i => cell n s i + c).
Proof.
  intros Hs i j _ _ E. apply INR_eq. unfold cell in E. assert (K : (INR i - INR j) * s = 0) by lra. apply Rmult_integral in K. destruct K; [lra|contradiction].
Qed.
Lemma injn_ext n f g : (forall i, f i = g i) -> injn n f -> injn n g.
Proof. intros E H i j Hi Hj. rewrite <- !E. now apply H. Qed.
Lemma filter_nodup {A} (p : A -> bool) l : NoDup l -> NoDup (filter p l).
Proof. induction 1; cbn; [constructor|]. destruct (p x); [constructor; [|assumption]|assumption]. intros K. apply filter_In in K. tauto. Qed.

(* ---- renormalisation ---- *)
Lemma sumR_const {A} c (l : list A) : sumR (map (fun _ => c) l) = INR (length l) * c.
Proof. induction l as [|a l IH]; [cbn; ring|]. cbn [map length]. rewrite S_INR. cbn [sumR fold_right] in *. unfold sumR in IH. rewrite IH. ring. Qed.
Lemma total_const c (l : list vec) : total_mass (map (fun v => mkpt c v) l) = INR (length l) * c.
Proof. induction l as [|a l IH]; [cbn; ring|]. cbn [map length]. rewrite S_INR. cbn [total_mass fold_right pm] in *. unfold total_mass in IH. rewrite IH. ring. Qed.
Definition even_mass (mass : R) (l : list vec) : list pt := map (fun v => mkpt (mass / INR (length l)) v) l.
Lemma renormalise_ok mass pm l : pm <> 0 -> renormalise mass pm l = Ok (even_mass mass l).
Proof.
  intros Hp. destruct l as [|v l]; [reflexivity|]. unfold renormalise, even_mass. set (vs := v :: l). rewrite sumR_const.
  assert (HN : INR (length vs) <> 0) by (apply not_0_INR; discriminate).
  rewrite is0_no by (now apply Rmult_integral_contrapositive_currified). f_equal. apply map_ext. intros w. f_equal. field. now split.
Qed.
Lemma even_fills mass S b nx ny nz l : (forall v, In v l <-> on_lattice b nx ny nz v /\ S v) -> NoDup l -> fills mass S b nx ny nz (even_mass mass l).
Proof.
  intros H N. unfold fills, even_mass. rewrite map_map. cbn [pp]. rewrite map_id. split; [exact H|]. split; [exact N|]. rewrite map_length. split.
  - intros p Hp. apply in_map_iff in Hp. destruct Hp as (v & <- & _). reflexivity.
  - intros K. rewrite total_const. field. apply not_0_INR. intros E. apply length_zero_iff_nil in E. subst l. now apply K.
Qed.
(* a filtered grid *)
Lemma grid_fills mass S b nx ny nz fx fy fz test : (0 < nx)%nat -> (0 < ny)%nat -> (0 < nz)%nat ->
  s_x0 b < s_x1 b -> s_y0 b < s_y1 b -> s_z0 b < s_z1 b ->
  (forall i, fx i = cell nx ((s_x1 b - s_x0 b) / INR nx) i + (s_x0 b + s_x1 b) / 2) ->
  (forall i, fy i = cell ny ((s_y1 b - s_y0 b) / INR ny) i + (s_y0 b + s_y1 b) / 2) ->
  (forall i, fz i = cell nz ((s_z1 b - s_z0 b) / INR nz) i + (s_z0 b + s_z1 b) / 2) ->
  (forall v, in_span b v -> (test v = true <-> S v)) ->
  fills mass S b nx ny nz (even_mass mass (filter test (grid nx ny nz fx fy fz))).
Proof.
  intros H1 H2 H3 L1 L2 L3 Fx Fy Fz HT. apply even_fills.
  - intros v. rewrite filter_In, in_grid. destruct v as [[x y] z]. cbv beta iota.
    rewrite (cell_in _ _ _ _ H1 Fx), (cell_in _ _ _ _ H2 Fy), (cell_in _ _ _ _ H3 Fz). unfold on_lattice.
    split; intros [HL HS]; (split; [exact HL|]); apply HT; try assumption; destruct HL as (C1 & C2 & C3);
      apply centre_range in C1, C2, C3; try assumption; unfold in_span; lra.
  - apply filter_nodup, grid_nodup.
    + apply (injn_ext nx (fun i => cell nx ((s_x1 b - s_x0 b) / INR nx) i + (s_x0 b + s_x1 b) / 2)); [intros; symmetry; apply Fx|]. apply cell_inj, Rgt_not_eq, Rdiv_lt_0_compat; [lra|apply lt_0_INR; lia].
    + apply (injn_ext ny (fun i => cell ny ((s_y1 b - s_y0 b) / INR ny) i + (s_y0 b + s_y1 b) / 2)); [intros; symmetry; apply Fy|]. apply cell_inj, Rgt_not_eq, Rdiv_lt_0_compat; [lra|apply lt_0_INR; lia].
    + apply (injn_ext nz (fun i => cell nz ((s_z1 b - s_z0 b) / INR nz) i + (s_z0 b + s_z1 b) / 2)); [intros; symmetry; apply Fz|]. apply cell_inj, Rgt_not_eq, Rdiv_lt_0_compat; [lra|apply lt_0_INR; lia].
Qed.

(* ---- polar angles ---- *)
Lemma rad_nonneg x y : 0 <= rad x y. Proof. apply sqrt_pos. Qed.
Lemma rad_sq x y : rad x y ^ 2 = x ^ 2 + y ^ 2.
Proof. unfold rad. apply pow2_sqrt. assert (A := pow2_ge_0 x). assert (B := pow2_ge_0 y). lra. Qed.
Lemma rad_polar r q : 0 <= r -> rad (r * cos q) (r * sin q) = r.
Proof.
  intros H. unfold rad. replace ((r * cos q) ^ 2 + (r * sin q) ^ 2) with (r ^ 2). { now rewrite sqrt_pow2. }
  assert (E := sin2_cos2 q). unfold Rsqr in E. transitivity (r ^ 2 * (sin q * sin q + cos q * cos q)); [rewrite E; ring|ring].
Qed.
Lemma sqrt_1_t t : 0 < sqrt (1 + t ^ 2). Proof. apply sqrt_lt_R0. assert (A := pow2_ge_0 t). lra. Qed.
Lemma cos_at t : cos (atan t) = / sqrt (1 + t ^ 2).
Proof. rewrite cos_atan. unfold Rsqr. replace (t * t) with (t ^ 2) by ring. field. apply Rgt_not_eq, sqrt_1_t. Qed.
Lemma sin_at t : sin (atan t) = t / sqrt (1 + t ^ 2).
Proof. rewrite sin_atan. unfold Rsqr. now replace (t * t) with (t ^ 2) by ring. Qed.
Lemma rad_scale x y : x <> 0 -> rad x y = Rabs x * sqrt (1 + (y / x) ^ 2).
Proof.
  intros Hx. unfold rad. rewrite <- (sqrt_Rsqr_abs x), <- sqrt_mult by (try apply Rle_0_sqr; assert (A := pow2_ge_0 (y / x)); lra). f_equal. unfold Rsqr. field. assumption.
Qed.
Lemma arctan2_range y x : - PI < arctan2 y x <= PI.
Proof.
  assert (HPI := PI_RGT_0). unfold arctan2. destruct (Req_EM_T _ 0) as [E|E]; [lra|]. destruct (Rle_dec 0 y) as [K|K].
  - destruct (acos_bound (x / sqrt (x ^ 2 + y ^ 2))). lra.
  - set (r := sqrt (x ^ 2 + y ^ 2)) in *. assert (Hr : 0 < r). { assert (A := sqrt_pos (x ^ 2 + y ^ 2)). fold r in A. lra. }
    assert (Hs : x ^ 2 + y ^ 2 = r ^ 2). { unfold r. symmetry. apply pow2_sqrt. assert (A := pow2_ge_0 x). assert (B := pow2_ge_0 y). lra. }
    assert (Hx : Rabs x < r). { apply Rsqr_incrst_0; [|apply Rabs_pos|lra]. rewrite <- Rsqr_abs. unfold Rsqr. nra. }
    assert (H1 : -1 < x / r < 1). { apply Rabs_def2 in Hx. split; [apply Rmult_lt_reg_r with r; [lra|]; replace (x / r * r) with x by (field; lra); lra|apply Rmult_lt_reg_r with r; [lra|]; replace (x / r * r) with x by (field; lra); lra]. }
    destruct (acos_bound_lt _ H1). lra.
Qed.
Lemma arctan2_polar x y : x = rad x y * cos (arctan2 y x) /\ y = rad x y * sin (arctan2 y x) /\ - PI < arctan2 y x <= PI.
Proof. destruct (arctan2_spec x y) as [E1 E2]. split; [now symmetry|]. split; [now symmetry|]. apply arctan2_range. Qed.
Lemma arctan2_0 : arctan2 0 0 = 0.
Proof. unfold arctan2. replace (0 ^ 2 + 0 ^ 2) with 0 by ring. rewrite sqrt_0. destruct (Req_EM_T 0 0); [reflexivity|lra]. Qed.
(* equal points on the circle have equal angles *)
Lemma angle_unique p q : - PI < p <= PI -> - PI < q <= PI -> cos p = cos q -> sin p = sin q -> p = q.
Proof.
  intros Hp Hq Ec Es. assert (HPI := PI_RGT_0).
  assert (C : cos (p - q) = 1). { rewrite cos_minus, Ec, Es. assert (E := sin2_cos2 q). unfold Rsqr in E. lra. }
  assert (S : sin ((p - q) / 2) = 0). { replace (p - q) with (2 * ((p - q) / 2)) in C by field. rewrite cos_2a_sin in C. assert (K : sin ((p - q) / 2) * sin ((p - q) / 2) = 0) by lra. apply Rmult_integral in K. tauto. }
  destruct (Rtotal_order p q) as [K|[K|K]]; [|assumption|]; exfalso.
  - assert (0 < sin (- ((p - q) / 2))) by (apply sin_gt_0; lra). rewrite sin_neg in H. lra.
  - assert (0 < sin ((p - q) / 2)) by (apply sin_gt_0; lra). lra.
Qed.
Lemma arctan2_unique r q : 0 < r -> - PI < q <= PI -> arctan2 (r * sin q) (r * cos q) = q.
Proof.
  intros Hr Hq. destruct (arctan2_polar (r * cos q) (r * sin q)) as (E1 & E2 & E3). rewrite rad_polar in E1, E2 by lra.
  apply Rmult_eq_reg_l in E1, E2; [|lra|lra]. symmetry. now apply angle_unique.
Qed.
Lemma sector_test r1 r2 beta x y : 0 <= r1 -> 0 <= beta <= PI ->
  (Rabs (arctan2 y x) <= beta /\ r1 <= rad x y <= r2) <-> in_sector r1 r2 beta x y.
Proof.
  intros Hr Hb. assert (HPI := PI_RGT_0). split.
  - intros (H1 & H2). destruct (arctan2_polar x y) as (E1 & E2 & E3). exists (rad x y), (arctan2 y x). split; [exact H2|]. split; [|now split]. unfold Rabs in H1. destruct (Rcase_abs _); lra.
  - intros (r & q & H1 & H2 & -> & ->). rewrite rad_polar by lra. split; [|exact H1]. destruct (Req_dec r 0) as [->|N].
    + rewrite !Rmult_0_l, arctan2_0, Rabs_R0. lra.
    + destruct (Req_dec q (- PI)) as [->|N'].
      * rewrite sin_neg, cos_neg. replace (r * - sin PI) with (r * sin PI) by (rewrite sin_PI; ring). rewrite arctan2_unique by lra. rewrite Rabs_right by lra. lra.
      * rewrite arctan2_unique by lra. apply Rabs_le. lra.
Qed.
Lemma sector_xy r1 r2 beta x y : 0 <= r1 -> 0 <= beta <= PI -> in_sector r1 r2 beta x y -> x_min beta r1 r2 <= x <= r2 /\ - y_max beta r2 <= y <= y_max beta r2.
Proof.
  intros Hr Hb (r & q & H1 & H2 & -> & ->). assert (HPI := PI_RGT_0). assert (C1 := COS_bound q). assert (S1 := SIN_bound q).
  assert (Hx : r * cos q <= r2) by nra. assert (Hc : cos beta <= cos q).
  { destruct (Rle_dec 0 q); [apply cos_decr_1; lra|]. rewrite <- (cos_neg q). apply cos_decr_1; lra. }
  unfold x_min, y_max. destruct (rlt beta (PI / 2)) eqn:E.
  - apply rlt_iff in E. assert (0 <= cos beta) by (apply cos_ge_0; lra).
    assert (Hs : - sin beta <= sin q <= sin beta). { split; [rewrite <- sin_neg|]; apply sin_incr_1; lra. }
    assert (0 <= sin beta) by (apply sin_ge_0; lra). split; [split; [nra|exact Hx]|]. split; nra.
  - apply rlt_no in E. assert (cos beta <= 0) by (apply cos_le_0; lra). split; [split; [|exact Hx]|split; nra]. nra.
Qed.
