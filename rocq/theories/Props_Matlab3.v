(* C68, C69, C70: the point-mass generators and scan tools of /repo/matlab-src *)
From Verif Require Import MomentSpec PointSpec Qlm GlibShapes GlibShapesProofs Props_GlibShapes QlmProofs5 Sums.
From Verif Require Import Matlab Cplx.
From Coq Require Import Permutation.
Open Scope R_scope.

(* ---- specification ---- *)
(* an annulus about the x axis *)
Definition sheet (r1 r2 t : R) : region := fun v => let '(x, y, z) := v in Rabs x <= t / 2 /\ r1 <= sqrt (y ^ 2 + z ^ 2) <= r2.
Definition sheet_span (r2 t : R) : span := mkspan (- t / 2) (t / 2) (- r2) r2 (- r2) r2.
Definition vneg (v : vec) : vec := let '(x, y, z) := v in (- x, - y, - z).

Lemma seq1 n : seq 1 n = map S (seq 0 n). Proof. now rewrite seq_shift. Qed.
Lemma flat_map_map {A B D} (f : B -> list D) (g : A -> B) l : flat_map f (map g l) = flat_map (fun x => f (g x)) l.
Proof. induction l as [|a l IH]; [reflexivity|]. cbn. now rewrite IH. Qed.
Lemma o_grid0 nx ny nz fx fy fz : o_grid nx ny nz fx fy fz = flat_map (fun i => flat_map (fun j => map (fun k => (fx (S i), fy (S j), fz (S k))) (seq 0 nz)) (seq 0 ny)) (seq 0 nx).
Proof. unfold o_grid. rewrite !seq1, flat_map_map. apply flat_map_ext. intros i. rewrite flat_map_map. apply flat_map_ext. intros j. now rewrite map_map. Qed.
Lemma in_ogrid nx ny nz fx fy fz v : In v (o_grid nx ny nz fx fy fz) <-> In v (grid nx ny nz (fun i => fx (S i)) (fun i => fy (S i)) (fun i => fz (S i))).
Proof.
  rewrite in_grid, o_grid0. destruct v as [[x y] z]. rewrite in_flat_map. split.
  - intros (i & Hi & H). apply in_flat_map in H. destruct H as (j & Hj & H). apply in_map_iff in H. destruct H as (k & E & Hk). injection E as <- <- <-.
    apply in_seq in Hk, Hj, Hi. split; [exists i|split; [exists j|exists k]]; (split; [lia|reflexivity]).
  - intros ((i & Hi & ->) & (j & Hj & ->) & (k & Hk & ->)). exists i. split; [apply in_seq; lia|]. apply in_flat_map. exists j. split; [apply in_seq; lia|].
    apply in_map_iff. exists k. split; [reflexivity|apply in_seq; lia].
Qed.
Lemma ogrid_nodup nx ny nz fx fy fz : injn nx (fun i => fx (S i)) -> injn ny (fun i => fy (S i)) -> injn nz (fun i => fz (S i)) -> NoDup (o_grid nx ny nz fx fy fz).
Proof.
  intros Hx Hy Hz. rewrite o_grid0. apply nodup_flat.
  - intros i Hi. apply nodup_flat.
    + intros j Hj. apply nodup_mapseq. intros a b Ha Hb E. injection E as E. now apply Hz.
    + intros j j' v Hj Hj' V V'. apply in_map_iff in V, V'. destruct V as (k & <- & _), V' as (k' & E & _). injection E as E _. symmetry. now apply Hy.
  - intros i i' v Hi Hi' V V'. apply in_flat_map in V, V'. destruct V as (j & _ & V), V' as (j' & _ & V'). apply in_map_iff in V, V'. destruct V as (k & <- & _), V' as (k' & E & _). injection E as E _ _. symmetry. now apply Hx.
Qed.
Lemma o_cell_is n s i : o_cell n s (S i) = cell n s i.
Proof. unfold o_cell, cell. rewrite S_INR. field. Qed.
Lemma fills_perm mass S b nx ny nz l l' : Permutation l l' -> fills mass S b nx ny nz (even_mass mass l) -> fills mass S b nx ny nz (even_mass mass l').
Proof.
  intros P H. apply even_fills.
  - destruct H as (H & _). intros v. rewrite <- H. unfold even_mass. rewrite map_map. cbn [pp]. rewrite map_id. split; apply Permutation_in; [now apply Permutation_sym|assumption].
  - destruct H as (_ & H & _). unfold even_mass in H. rewrite map_map in H. cbn [pp] in H. rewrite map_id in H. now apply (Permutation_NoDup P).
Qed.
Lemma perm_filter {A} (t : A -> bool) l l' : Permutation l l' -> Permutation (filter t l) (filter t l').
Proof. induction 1; cbn; [constructor|destruct (t x); [now constructor|assumption]|destruct (t x), (t y); try apply perm_swap; apply Permutation_refl|now apply (perm_trans IHPermutation1)]. Qed.
Lemma ogrid_perm nx ny nz sx sy sz : sx <> 0 -> sy <> 0 -> sz <> 0 ->
  Permutation (grid nx ny nz (cell nx sx) (cell ny sy) (cell nz sz)) (o_grid nx ny nz (o_cell nx sx) (o_cell ny sy) (o_cell nz sz)).
Proof.
  intros Hx Hy Hz. assert (I : forall n s, s <> 0 -> injn n (cell n s)).
  { intros n s Hs i j Hi Hj E. apply (cell_inj n s 0 Hs i j Hi Hj). now rewrite E. }
  assert (I' : forall n s, s <> 0 -> injn n (fun i => o_cell n s (S i))) by (intros n s Hs i j Hi Hj; rewrite !o_cell_is; now apply I).
  apply NoDup_Permutation; [apply grid_nodup; now apply I|apply ogrid_nodup; now apply I'|].
  intros v. rewrite in_ogrid, !in_grid. destruct v as [[x y] z].
  assert (Q : forall n s u, (exists i, (i < n)%nat /\ u = cell n s i) <-> (exists i, (i < n)%nat /\ u = o_cell n s (S i))) by (intros n s u; split; intros (i & Hi & E); exists i; rewrite ?o_cell_is in *; now split).
  rewrite !Q. reflexivity.
Qed.

(* ---- C68: regular arrays ---- *)
Theorem C68_rect : forall mass x y z nx ny nz, 0 < x -> 0 < y -> 0 < z -> (0 < nx)%nat -> (0 < ny)%nat -> (0 < nz)%nat ->
  fills mass (brick (0, 0, 0) x y z) (brick_span (0, 0, 0) x y z) nx ny nz (o_genPointMassRect mass x y z nx ny nz).
Proof.
  intros mass x y z nx ny nz Hx Hy Hz H1 H2 H3. assert (N1 := INRpos _ H1). assert (N2 := INRpos _ H2). assert (N3 := INRpos _ H3).
  assert (P := ogrid_perm nx ny nz (x / INR nx) (y / INR ny) (z / INR nz)). specialize (P ltac:(apply nodivpos; assumption) ltac:(apply nodivpos; assumption) ltac:(apply nodivpos; assumption)).
  assert (E : o_genPointMassRect mass x y z nx ny nz = even_mass mass (o_grid nx ny nz (o_cell nx (x / INR nx)) (o_cell ny (y / INR ny)) (o_cell nz (z / INR nz)))).
  { unfold o_genPointMassRect, even_mass. rewrite <- (Permutation_length P), grid_len. reflexivity. }
  rewrite E. apply (fills_perm _ _ _ _ _ _ _ _ P).
  rewrite <- (filter_all (fun _ => true) (grid _ _ _ _ _ _)) by reflexivity. apply grid_fills; try assumption; cbn [brick_span s_x0 s_x1 s_y0 s_y1 s_z0 s_z1]; try lra.
  - intros i. unfold cell. field. lra.
  - intros i. unfold cell. field. lra.
  - intros i. unfold cell. field. lra.
  - intros [[vx vy] vz]. unfold in_span, brick. cbn [s_x0 s_x1 s_y0 s_y1 s_z0 s_z1]. intros (A1 & A2 & A3). split; [intros _|reflexivity]. rewrite !Rabs_iff. lra.
Qed.
(* where newt.glibShapes.rectangle is right (equal counts in x and y) the two give the same points *)
Theorem C68_rect_as_in_python : forall mass x y z n nz pts, 0 < x -> 0 < y -> 0 < z -> (0 < n)%nat -> (0 < nz)%nat ->
  g_rectangle mass x y z n n nz = Ok pts -> Permutation pts (o_genPointMassRect mass x y z n n nz).
Proof.
  intros mass x y z n nz pts Hx Hy Hz H1 H3 E. assert (N1 := INRpos _ H1). assert (N3 := INRpos _ H3). unfold g_rectangle in E. rewrite !no_cells_pos in E by assumption. cbn [orb] in E. injection E as <-.
  apply Permutation_map. apply ogrid_perm; apply nodivpos; assumption.
Qed.
Theorem C68_annular_sheet : forall mass r1 r2 t nx ny, 0 <= r1 < r2 -> 0 < t -> mass <> 0 -> (0 < nx)%nat -> (0 < ny)%nat ->
  exists pts, o_genPointMassAnnlSheet mass r1 r2 t nx ny = Ok pts /\ fills mass (sheet r1 r2 t) (sheet_span r2 t) nx ny ny pts.
Proof.
  intros mass r1 r2 t nx ny Hr Ht Hm H1 H2. assert (N1 := INRpos _ H1). assert (N2 := INRpos _ H2). assert (HPI := PI_RGT_0).
  unfold o_genPointMassAnnlSheet. cbv zeta. set (V := PI * (r2 ^ 2 - r1 ^ 2) * t). assert (HV : 0 < V) by (apply Rmult_lt_0_compat; [apply Rmult_lt_0_compat; [lra|nra]|lra]).
  set (sx := t / INR nx). set (sy := r2 * 2 / INR ny). assert (Sx : sx <> 0) by (apply nodivpos; lra). assert (Sy : sy <> 0) by (apply nodivpos; lra).
  set (test := fun v : vec => let '(x, y, z) := v in let pRadius := sqrt (y ^ 2 + z ^ 2) in (rle pRadius r2 && rle r1 pRadius)%bool).
  set (w := mass / V * sx * sy * sy). assert (Hw : w <> 0) by (unfold w; apply mul_ne; [apply mul_ne; [apply mul_ne; [apply div_ne; lra|assumption]|assumption]|assumption]).
  assert (P := ogrid_perm nx ny ny sx sy sy Sx Sy Sy). apply (perm_filter test) in P.
  assert (F : fills mass (sheet r1 r2 t) (sheet_span r2 t) nx ny ny (even_mass mass (filter test (o_grid nx ny ny (o_cell nx sx) (o_cell ny sy) (o_cell ny sy))))).
  { apply (fills_perm _ _ _ _ _ _ _ _ P). apply grid_fills; try assumption; cbn [sheet_span s_x0 s_x1 s_y0 s_y1 s_z0 s_z1]; try lra.
    - intros i. unfold cell, sx. field. lra.
    - intros i. unfold cell, sy. field. lra.
    - intros i. unfold cell, sy. field. lra.
    - intros [[vx vy] vz]. unfold in_span, sheet, test, sheet_span. cbn [s_x0 s_x1 s_y0 s_y1 s_z0 s_z1]. intros (A1 & A2 & A3). cbv zeta. rewrite andb_true_iff, !rle_iff, Rabs_iff. split; intros B; [split; [lra|tauto]|tauto]. }
  exists (even_mass mass (filter test (o_grid nx ny ny (o_cell nx sx) (o_cell ny sy) (o_cell ny sy)))). split; [|exact F].
  set (l := filter test (o_grid nx ny ny (o_cell nx sx) (o_cell ny sy) (o_cell ny sy))).
  match goal with |- match ?f with nil => _ | cons _ _ => _ end = _ => change f with l end. clearbody l.
  destruct l as [|v l]; [reflexivity|]. set (vs := v :: l). rewrite sumR_const. assert (HN : INR (length vs) <> 0) by (apply not_0_INR; discriminate).
  assert (HV' : V <> 0) by lra. assert (Q : INR (length vs) * w / mass <> 0) by (apply div_ne; [apply mul_ne; assumption|assumption]).
  match goal with |- context [is0 (?a / mass)] => change a with (INR (length vs) * w) end.
  rewrite (is0_no V HV'), (is0_no mass Hm), (is0_no _ Q). cbn [orb]. f_equal. unfold even_mass. apply map_ext. intros u. f_equal. field. repeat split; assumption.
Qed.
(* both arrays look the same from opposite sides, so their centre of mass is the origin *)
Lemma centre_neg a n x : (0 < n)%nat -> centre (- a) a n x -> centre (- a) a n (- x).
Proof.
  intros Hn (i & Hi & ->). assert (N := INRpos _ Hn). exists (n - 1 - i)%nat. split; [lia|]. rewrite !minus_INR by lia. change (INR 1) with 1. field. lra.
Qed.
Theorem C68_symmetric : forall mass x y z r1 r2 t nx ny nz v pts, 0 < x -> 0 < y -> 0 < z -> 0 <= r1 < r2 -> 0 < t -> mass <> 0 -> (0 < nx)%nat -> (0 < ny)%nat -> (0 < nz)%nat ->
  (In v (map pp (o_genPointMassRect mass x y z nx ny nz)) -> In (vneg v) (map pp (o_genPointMassRect mass x y z nx ny nz))) /\
  (o_genPointMassAnnlSheet mass r1 r2 t nx ny = Ok pts -> In v (map pp pts) -> In (vneg v) (map pp pts)).
Proof.
  intros mass x y z r1 r2 t nx ny nz v pts Hx Hy Hz Hr Ht Hm H1 H2 H3. split.
  - destruct (C68_rect mass x y z nx ny nz Hx Hy Hz H1 H2 H3) as (F & _). rewrite !F. destruct v as [[a b] c]. unfold on_lattice, brick, brick_span. cbn [vneg s_x0 s_x1 s_y0 s_y1 s_z0 s_z1].
    replace (0 - x / 2) with (- (x / 2)) by ring. replace (0 + x / 2) with (x / 2) by ring. replace (0 - y / 2) with (- (y / 2)) by ring. replace (0 + y / 2) with (y / 2) by ring. replace (0 - z / 2) with (- (z / 2)) by ring. replace (0 + z / 2) with (z / 2) by ring.
    intros ((A1 & A2 & A3) & B). split; [split; [now apply centre_neg|split; now apply centre_neg]|]. rewrite !Rabs_iff in *. lra.
  - intros E. destruct (C68_annular_sheet mass r1 r2 t nx ny Hr Ht Hm H1 H2) as (pts' & E' & F & _). rewrite E in E'. injection E' as <-. rewrite !F.
    destruct v as [[a b] c]. unfold on_lattice, sheet, sheet_span. cbn [vneg s_x0 s_x1 s_y0 s_y1 s_z0 s_z1]. replace (- t / 2) with (- (t / 2)) by field.
    intros ((A1 & A2 & A3) & B). split; [split; [now apply centre_neg|split; now apply centre_neg]|]. replace ((- b) ^ 2) with (b ^ 2) by ring. replace ((- c) ^ 2) with (c ^ 2) by ring. rewrite !Rabs_iff in *. lra.
Qed.
Print Assumptions C68_symmetric.
(* genPointMassLine never uses zstart *)
Theorem C68_line : forall m x y z0 dz N,
  length (o_genPointMassLine m x y z0 dz N) = N /\ total_mass (o_genPointMassLine m x y z0 dz N) = INR N * m /\
  (forall k, (k < N)%nat -> nth_error (o_genPointMassLine m x y z0 dz N) k = Some (mkpt m (x, y, INR k * dz))) /\
  (forall z0', o_genPointMassLine m x y z0' dz N = o_genPointMassLine m x y z0 dz N).
Proof.
  intros m x y z0 dz N. unfold o_genPointMassLine. split; [now rewrite map_length, seq_length|]. split; [|split; [|reflexivity]].
  - assert (G : forall a, total_mass (map (fun k => mkpt (1 * m) (1 * x, 1 * y, INR k * dz)) (seq a N)) = INR N * m).
    { induction N as [|N IH]; intros a; [cbn; ring|]. rewrite S_INR. cbn [seq map total_mass fold_right pm]. unfold total_mass in IH. rewrite IH. ring. }
    apply G.
  - intros k Hk. rewrite nth_error_map. rewrite (nth_error_nth' (seq 0 N) 0%nat) by (rewrite seq_length; exact Hk). rewrite seq_nth by exact Hk. cbn. now rewrite !Rmult_1_l.
Qed.
(* so it is where the caller asked for exactly when zstart = 0 *)
Theorem C68_line_start_ignored : forall m x y z0 dz N, (0 < N)%nat ->
  (o_genPointMassLine m x y z0 dz N = map (fun k => mkpt m (x, y, z0 + INR k * dz)) (seq 0 N) <-> z0 = 0).
Proof.
  intros m x y z0 dz N HN. split.
  - intros E. destruct N as [|N]; [lia|]. cbn in E. injection E as _ _ _ E _. lra.
  - intros ->. unfold o_genPointMassLine. apply map_ext. intros k. now rewrite !Rmult_1_l, Rplus_0_l.
Qed.
(* a ring of N points about the x axis: balanced from two points on *)
Theorem C68_ring : forall mass r N, (0 < N)%nat -> exists pts, o_genPointMassXRing mass r N = Ok pts /\
  (forall k, (k < N)%nat -> nth_error pts k = Some (mkpt (mass / INR N) (0, r * sin (2 * PI * INR k / INR N), r * cos (2 * PI * INR k / INR N)))) /\
  length pts = N /\ total_mass pts = mass /\ (forall p, In p pts -> vnorm (pp p) = Rabs r) /\
  ((2 <= N)%nat -> fold_right (fun p acc => vadd (vscal (pm p) (pp p)) acc) v0 pts = v0).
Proof.
  intros mass r N HN. assert (Hn := INRpos _ HN). destruct N as [|N']; [lia|]. set (N := S N') in *.
  set (pt_of := fun k => mkpt (mass / INR N) (0, r * sin (2 * PI * INR k / INR N), r * cos (2 * PI * INR k / INR N))).
  exists (map pt_of (seq 0 N)). split.
  { unfold o_genPointMassXRing. unfold N at 1. cbn beta iota. f_equal. rewrite seq1, map_map. apply map_ext. intros k. unfold pt_of. rewrite S_INR. cbv zeta.
    replace (2 * PI / INR N * (INR k + 1 - 1)) with (2 * PI * INR k / INR N) by (field; lra). f_equal. f_equal; [f_equal|]; ring. }
  split. { intros k Hk. rewrite nth_error_map, (nth_error_nth' (seq 0 N) 0%nat) by (rewrite seq_length; exact Hk). rewrite seq_nth by exact Hk. reflexivity. }
  split; [now rewrite map_length, seq_length|]. split.
  { assert (G : forall n a, total_mass (map pt_of (seq a n)) = INR n * (mass / INR N)).
    { induction n as [|n IH]; intros a; [cbn; ring|]. rewrite S_INR. cbn [seq map total_mass fold_right pm pt_of]. unfold total_mass in IH. rewrite IH. ring. }
    rewrite G. field. lra. }
  split.
  { intros p Hp. apply in_map_iff in Hp. destruct Hp as (k & <- & _). unfold pt_of. cbn [pp]. set (q := 2 * PI * INR k / INR N). unfold vnorm. rewrite <- sqrt_Rsqr_abs. f_equal. unfold Rsqr.
    assert (X := sin2_cos2 q). unfold Rsqr in X. transitivity (r * r * (sin q * sin q + cos q * cos q)); [ring|rewrite X; ring]. }
  intros H2. assert (Q := roots_N N 1 0 HN). replace (1 mod Z.of_nat N =? 0)%Z with false in Q by (symmetry; apply Z.eqb_neq; rewrite Z.mod_small; lia).
  assert (G : forall n, (n <= N)%nat -> fold_right (fun p acc => vadd (vscal (pm p) (pp p)) acc) v0 (map pt_of (seq 0 n))
     = (0, - (mass / INR N * r * snd (nsum n (fun i => cexpi (- (IZR 1 * (0 + 2 * PI * INR i / INR N)))))), mass / INR N * r * fst (nsum n (fun i => cexpi (- (IZR 1 * (0 + 2 * PI * INR i / INR N))))))).
  { assert (K : forall l b, fold_right (fun p acc => vadd (vscal (pm p) (pp p)) acc) b l = vadd (fold_right (fun p acc => vadd (vscal (pm p) (pp p)) acc) v0 l) b).
    { induction l as [|p l IH]; intros b; cbn [fold_right]; [destruct b as [[b1 b2] b3]; unfold v0; cbn; refine (f_equal2 pair (f_equal2 pair _ _) _); ring|].
      rewrite IH. generalize (fold_right (fun p acc => vadd (vscal (pm p) (pp p)) acc) v0 l). intros w. destruct (vscal (pm p) (pp p)) as [[u1 u2] u3], w as [[w1 w2] w3], b as [[b1 b2] b3]. cbn. refine (f_equal2 pair (f_equal2 pair _ _) _); ring. }
    induction n as [|n IH]; intros Hle; [cbn; unfold v0; refine (f_equal2 pair (f_equal2 pair _ _) _); ring|].
    rewrite seq_S, map_app, fold_right_app, K, IH by lia. cbn [map fold_right nsum plus]. unfold pt_of at 1 2. cbn [pm pp]. unfold v0, vadd, vscal.
    assert (E : (- (IZR 1 * (0 + 2 * PI * INR n / INR N))) = - (2 * PI * INR n / INR N)) by (field; lra). rewrite E.
    set (w := nsum n _). clearbody w. destruct w as [wr wi]. unfold cexpi. cbn [fst snd Cplus]. rewrite ?cos_neg, ?sin_neg. refine (f_equal2 pair (f_equal2 pair _ _) _); rewrite ?Nat.add_0_l; ring. }
  rewrite G by lia. rewrite Q. cbn [fst snd RtoC]. unfold v0. refine (f_equal2 pair (f_equal2 pair _ _) _); ring.
Qed.
Theorem C68_empty_ring : forall mass r, o_genPointMassXRing mass r 0 = Err LookupFail. Proof. reflexivity. Qed.
Print Assumptions C68_ring.
