(* Solids between graphs, filled with Gauss-Legendre points: balls, bricks and the triangular prisms of newt/gShapeGL.py. *)
From Coq Require Import Reals Lra Lia List Bool.
From Coquelicot Require Import Coquelicot.
From Verif Require Import Glib Res LipInt BodyInt SolidSpec VInt PointSpec NewtonSpec Newton ShapeSpec GLSpec GLPoints GShapeGL GlibShapes GlibShapesProofs Props_GlibShapes Props_GlibShapes2 GLProofs Props_GL Props_GL2 Gauss Props_GL3 QlmProofs3 RefineSpec Refine2 Refine3 Refine4 Refine5 Polar Refine7 Refine8 Refine9 Refine10 GLRefineSpec.
From Verif Require Import Cplx.
From Verif Require Import Refine GLEven GLLimit GLCount GLPieces GLTends GLShapes.
Import ListNotations.
Open Scope R_scope.

Lemma gsum_xyz bx rx ry rz h : gsum bx rx ry rz h = gq (s_x0 bx) (s_x1 bx) rx (fun x => gq (s_y0 bx) (s_y1 bx) ry (fun y => gq (s_z0 bx) (s_z1 bx) rz (fun z => h (x, y, z)))).
Proof.
  unfold gsum. transitivity (gq (s_z0 bx) (s_z1 bx) rz (fun z => gq (s_x0 bx) (s_x1 bx) rx (fun x => gq (s_y0 bx) (s_y1 bx) ry (fun y => h (x, y, z))))).
  - apply gq_eq. intros z. apply gq_swap.
  - rewrite gq_swap. apply gq_eq. intros x. apply gq_swap.
Qed.
Section Solid.
Variables (bx : span) (S : region) (e f : R) (lo1 hi1 : R -> R) (lo2 hi2 : R -> R -> R) (B : body).
Hypotheses (X : s_x0 bx < s_x1 bx) (Y : s_y0 bx < s_y1 bx) (Z : s_z0 bx < s_z1 bx) (Ha : s_x0 bx <= e) (He : e < f) (Hf : f <= s_x1 bx).
Hypothesis Hb1 : forall u, e <= u <= f -> s_y0 bx <= lo1 u /\ lo1 u <= hi1 u /\ hi1 u <= s_y1 bx.
Hypothesis Hb2 : forall u v, e <= u <= f -> lo1 u <= v <= hi1 u -> s_z0 bx <= lo2 u v /\ lo2 u v <= hi2 u v /\ hi2 u v <= s_z1 bx.
Hypotheses (U1 : UC Rs Rs lo1) (U2 : UC Rs Rs hi1) (U3 : UC P2 Rs (fun p => lo2 (fst p) (snd p))) (U4 : UC P2 Rs (fun p => hi2 (fst p) (snd p))).
Hypotheses (P1 : forall u, e < u < f -> lo1 u < hi1 u) (P2' : forall u v, e < u < f -> lo1 u < v < hi1 u -> lo2 u v < hi2 u v).
Hypothesis HS : forall u v w, S (u, v, w) <-> e <= u <= f /\ lo1 u <= v <= hi1 u /\ lo2 u v <= w <= hi2 u v.
Hypothesis HB : forall f' I, is_int3 e f lo1 hi1 lo2 hi2 f' I -> B f' I.
Definition graph_int (g : vec -> R) : R := RInt (fun u => RInt (fun v => RInt (fun w => g (u, v, w)) (lo2 u v) (hi2 u v)) (lo1 u) (hi1 u)) e f.
Theorem graph_gcounts : gcounts bx S graph_int.
Proof.
  apply (gcounts_graph (fun u v w => (u, v, w)) (s_x0 bx) (s_x1 bx) (s_y0 bx) (s_y1 bx) (s_z0 bx) (s_z1 bx) e f lo1 hi1 lo2 hi2 (inb e f) (fun u => inb (lo1 u) (hi1 u)) (fun u v => inb (lo2 u v) (hi2 u v))); try assumption; try lra.
  - exact (LL_id V3).
  - intros u H. now apply inb_iff.
  - intros u H. apply inb_iff. lra.
  - intros u v _ H. now apply inb_iff.
  - intros u v _ H. apply inb_iff. lra.
  - intros u v w _ _ H. now apply inb_iff.
  - intros u v w _ _ H. apply inb_iff. lra.
  - intros u v w. rewrite !inb_iff. apply HS.
  - intros k nx ny nz rx ry rz K1 K2 K3 G1 G2 G3. exists nx, ny, nz, rx, ry, rz. do 6 (split; [assumption|]). intros h. apply gsum_xyz.
Qed.
Lemma UF3 g : UC V3 Rs g -> UC (pprod (pprod (pprod Rs Rs) Rs) Rs) Rs (fun p => g (snd (fst (fst p)), snd (fst p), snd p)).
Proof.
  intros G. set (Q := pprod (pprod Rs Rs) Rs).
  assert (A1 : UC (pprod Q Rs) Q fst) by apply UC_LL, LL_fst.
  assert (A2 : UC (pprod Q Rs) Rs (fun p : car (pprod Q Rs) => snd (fst (fst p)))) by exact (UC_comp (pprod Q Rs) (pprod Rs Rs) Rs (fun p : car (pprod Q Rs) => fst (fst p)) snd (UC_comp (pprod Q Rs) Q (pprod Rs Rs) fst fst A1 (UC_LL _ _ _ (LL_fst (pprod Rs Rs) Rs))) (UC_snd Rs Rs)).
  assert (A3 : UC (pprod Q Rs) Rs (fun p : car (pprod Q Rs) => snd (fst p))) by exact (UC_comp (pprod Q Rs) Q Rs fst snd A1 (UC_LL _ _ _ (LL_snd (pprod Rs Rs) Rs))).
  assert (A4 : UC (pprod Q Rs) Rs snd) by apply UC_LL, LL_snd.
  apply (UC_comp (pprod Q Rs) V3 Rs (fun p : car (pprod Q Rs) => (snd (fst (fst p)), snd (fst p), snd p)) g); [|exact G].
  apply (UC_pair (pprod Q Rs) (pprod Rs Rs) Rs (fun p : car (pprod Q Rs) => (snd (fst (fst p)), snd (fst p))) snd); [|exact A4]. now apply (UC_pair (pprod Q Rs) Rs Rs).
Qed.
Lemma graph_body g : UC V3 Rs g -> B (fun a b c => RtoC (g (a, b, c))) (RtoC (graph_int g)).
Proof using U1 U2 U3 U4 HB.
  clear - U1 U2 U3 U4 HB. intros G. apply HB. clear HB.
  assert (UF := UF3 g G).
  assert (TL : UC (pprod (pprod Rs Rs) Rs) P2 (fun p => (snd (fst p), snd p))).
  { apply (UC_pair (pprod (pprod Rs Rs) Rs) Rs Rs (fun p => snd (fst p)) (fun p => snd p)); [|apply UC_LL, LL_snd]. exact (UC_comp (pprod (pprod Rs Rs) Rs) (pprod Rs Rs) Rs fst snd (UC_LL _ _ _ (LL_fst (pprod Rs Rs) Rs)) (UC_LL _ _ _ (LL_snd Rs Rs))). }
  set (GG := fun u v => RInt (fun w => g (u, v, w)) (lo2 u v) (hi2 u v)). set (HH := fun u => RInt (fun v => GG u v) (lo1 u) (hi1 u)).
  assert (UG : UC (pprod (pprod Rs Rs) Rs) Rs (fun p => GG (snd (fst p)) (snd p))).
  { apply (UC_int (pprod (pprod Rs Rs) Rs) (fun p => g (snd (fst (fst p)), snd (fst p), snd p)) (fun p => lo2 (snd (fst p)) (snd p)) (fun p => hi2 (snd (fst p)) (snd p))); [exact UF| |].
    - exact (UC_comp (pprod (pprod Rs Rs) Rs) P2 Rs (fun p => (snd (fst p), snd p)) (fun p => lo2 (fst p) (snd p)) TL U3).
    - exact (UC_comp (pprod (pprod Rs Rs) Rs) P2 Rs (fun p => (snd (fst p), snd p)) (fun p => hi2 (fst p) (snd p)) TL U4). }
  assert (UH : UC (pprod Rs Rs) Rs (fun p => HH (snd p))).
  { apply (UC_int (pprod Rs Rs) (fun p => GG (snd (fst p)) (snd p)) (fun p => lo1 (snd p)) (fun p => hi1 (snd p))); [exact UG| |].
    - exact (UC_comp (pprod Rs Rs) Rs Rs snd lo1 (UC_snd Rs Rs) U1).
    - exact (UC_comp (pprod Rs Rs) Rs Rs snd hi1 (UC_snd Rs Rs) U2). }
  exists (fun u v => RtoC (GG u v)), (fun u => RtoC (HH u)). split; [|split].
  - intros u v. apply (CInt_ex (fun w => g (u, v, w))). exact (UC_ex_RInt (pprod (pprod Rs Rs) Rs) (fun p => g (snd (fst (fst p)), snd (fst p), snd p)) ((0, u), v) _ _ UF).
  - intros u. apply (CInt_ex (fun v => GG u v)). exact (UC_ex_RInt (pprod Rs Rs) (fun p => GG (snd (fst p)) (snd p)) (0, u) _ _ UG).
  - apply (CInt_ex HH). exact (UC_ex_RInt Rs (fun p => HH (snd p)) 0 _ _ UH).
Qed.
Lemma graph_volume : 0 < graph_int (fun _ => 1).
Proof using He U1 U2 U3 U4 P1 P2'.
  clear - He U1 U2 U3 U4 P1 P2'. unfold graph_int.
  assert (UD : UC (pprod Rs Rs) Rs (fun p => hi2 (fst p) (snd p) - lo2 (fst p) (snd p))) by now apply UC_sub.
  assert (UI := UC_int Rs _ lo1 hi1 UD U1 U2). cbn [fst snd] in UI.
  set (W := fun u => RInt (fun v => hi2 u v - lo2 u v) (lo1 u) (hi1 u)) in UI.
  assert (UI' : UC (pprod Rs Rs) Rs (fun p => W (snd p))). { apply (UC_comp (pprod Rs Rs) Rs Rs snd W); [|exact UI]. apply UC_LL. apply LL_snd. }
  rewrite (RInt_fext _ W).
  - apply RInt_gt_0; [exact He| |].
    + intros u Hu. unfold W. apply RInt_gt_0; [now apply P1| |].
      * intros v Hv. specialize (P2' u v Hu Hv). lra.
      * intros v Hv. exact (UC_continuous Rs _ u v UD).
    + intros u _. exact (UC_continuous Rs (fun p => W (snd p)) 0 u UI').
  - intros u. unfold W. apply RInt_fext. intros v. rewrite (RInt_const (V := R_CompleteNormedModule)). change ((hi2 u v - lo2 u v) * 1 = hi2 u v - lo2 u v). ring.
Qed.
End Solid.

(* ---- balls ---- *)
Lemma ball_graph r u v w : 0 < r -> (ball_region r (u, v, w) <-> - r <= u <= r /\ - sqrt (r ^ 2 - u ^ 2) <= v <= sqrt (r ^ 2 - u ^ 2) /\ - sqrt (r ^ 2 - u ^ 2 - v ^ 2) <= w <= sqrt (r ^ 2 - u ^ 2 - v ^ 2)).
Proof.
  intros Hr. assert (A := pow2_ge_0 u). assert (B := pow2_ge_0 v). assert (C := pow2_ge_0 w).
  assert (E : ball_region r (u, v, w) <-> u ^ 2 + v ^ 2 + w ^ 2 <= r ^ 2).
  { unfold ball_region, vnorm. split; intros H.
    - rewrite <- (pow2_sqrt (u ^ 2 + v ^ 2 + w ^ 2)) by lra. apply pow_incr. split; [apply sqrt_pos|exact H].
    - rewrite <- (sqrt_pow2 r) by lra. apply sqrt_le_1_alt. exact H. }
  assert (SQ : forall q t, 0 <= q -> (- sqrt q <= t <= sqrt q <-> t ^ 2 <= q)).
  { intros q t Hq. rewrite <- Rabs_le_between. rewrite <- (pow2_sqrt q) at 2 by exact Hq. assert (P := sqrt_pos q). rewrite <- (pow2_abs t). assert (P' := Rabs_pos t). split; intros H; [apply pow_incr; lra|]. apply Rsqr_incr_0_var; [unfold Rsqr; cbn [pow] in H; lra|exact P]. }
  assert (S1 : - r <= u <= r <-> u ^ 2 <= r ^ 2). { rewrite <- (SQ (r ^ 2) u) by (apply pow2_ge_0). rewrite sqrt_pow2 by lra. reflexivity. }
  rewrite E, S1. split.
  - intros H. split; [lra|]. split; apply SQ; lra.
  - intros (H1 & H2 & H3). apply SQ in H2; [|lra]. apply SQ in H3; lra.
Qed.
Lemma UC_chord3 r : UC P2 Rs (fun p : R * R => sqrt (r ^ 2 - fst p ^ 2 - snd p ^ 2)).
Proof.
  apply (UC_ext P2 Rs (fun p : R * R => sqrt (sqrt (r ^ 2 - fst p ^ 2) ^ 2 - snd p ^ 2))).
  - intros [u v]. cbn [fst snd]. destruct (Rle_dec 0 (r ^ 2 - u ^ 2)) as [H|H]; [now rewrite pow2_sqrt|]. assert (B := pow2_ge_0 v). rewrite (sqrt_neg_0 (r ^ 2 - u ^ 2)) by lra. rewrite !sqrt_neg_0; lra.
  - apply UC_chord2; [apply UC_chord; apply (UC_fst Rs Rs)|apply (UC_snd Rs Rs)].
Qed.
Theorem gl_sphere_tends mass Rad r : mass <> 0 -> 0 < Rad <= r ->
  tends (fun n pts => exists gl dd, (n < dd)%nat /\ rules_at gl (dd :: nil) /\ gl_sphere gl mass Rad dd = Ok pts) (of_mass mass (round_ball Rad)) r /\ forall n, exists pts gl dd, (n < dd)%nat /\ rules_at gl (dd :: nil) /\ gl_sphere gl mass Rad dd = Ok pts.
Proof.
  intros Hm Hr. assert (HPI := PI_RGT_0). assert (Hr3 : 0 < Rad ^ 3) by (apply pow_lt; lra). assert (HV : 4 / 3 * PI * Rad ^ 3 <> 0) by (apply mul_ne; [apply mul_ne; lra|lra]).
  assert (U0 : UC Rs Rs (fun y => y)) by (apply UC_LL, LL_id). assert (Uc := UC_chord Rs Rad (fun y => y) U0). assert (U3 := UC_chord3 Rad).
  assert (Q1 : forall u, - Rad <= u <= Rad -> u ^ 2 <= Rad ^ 2) by (intros; nra).
  assert (SP : forall q, 0 <= q -> q <= Rad ^ 2 -> sqrt q <= Rad). { intros q A B. rewrite <- (sqrt_pow2 Rad) by lra. now apply sqrt_le_1_alt. }
  assert (SQ : forall q t, 0 <= q -> - sqrt q <= t <= sqrt q -> t ^ 2 <= q). { intros q t Hq Ht. rewrite <- (pow2_sqrt q) by exact Hq. assert (P := sqrt_pos q). nra. }
  assert (SL : forall q t, 0 <= q -> - sqrt q < t < sqrt q -> t ^ 2 < q). { intros q t Hq Ht. rewrite <- (pow2_sqrt q) by exact Hq. assert (P := sqrt_pos q). nra. }
  assert (C : gcounts (cube_span Rad) (ball_region Rad) (graph_int (- Rad) Rad (fun x => - sqrt (Rad ^ 2 - x ^ 2)) (fun x => sqrt (Rad ^ 2 - x ^ 2)) (fun x y => - sqrt (Rad ^ 2 - x ^ 2 - y ^ 2)) (fun x y => sqrt (Rad ^ 2 - x ^ 2 - y ^ 2)))).
  { apply graph_gcounts; unfold cube_span; fields; try lra; try assumption.
    - intros u Hu. specialize (Q1 u Hu). assert (P := sqrt_pos (Rad ^ 2 - u ^ 2)). assert (A := pow2_ge_0 u). specialize (SP (Rad ^ 2 - u ^ 2) ltac:(lra) ltac:(lra)). lra.
    - intros u v Hu Hv. specialize (Q1 u Hu). assert (P := sqrt_pos (Rad ^ 2 - u ^ 2 - v ^ 2)). assert (A := pow2_ge_0 u). assert (A' := pow2_ge_0 v). apply SQ in Hv; [|lra]. specialize (SP (Rad ^ 2 - u ^ 2 - v ^ 2) ltac:(lra) ltac:(lra)). lra.
    - apply (UC_opp Rs); exact Uc.
    - apply (UC_opp P2 (fun p : R * R => sqrt (Rad ^ 2 - fst p ^ 2 - snd p ^ 2))); exact U3.
    - intros u v w. apply ball_graph. lra. }
  assert (PV : 0 < graph_int (- Rad) Rad (fun x => - sqrt (Rad ^ 2 - x ^ 2)) (fun x => sqrt (Rad ^ 2 - x ^ 2)) (fun x y => - sqrt (Rad ^ 2 - x ^ 2 - y ^ 2)) (fun x y => sqrt (Rad ^ 2 - x ^ 2 - y ^ 2)) (fun _ => 1)).
  { apply graph_volume; try lra; try assumption.
    - apply (UC_opp Rs); exact Uc.
    - apply (UC_opp P2 (fun p : R * R => sqrt (Rad ^ 2 - fst p ^ 2 - snd p ^ 2))); exact U3.
    - intros u Hu. assert (0 < sqrt (Rad ^ 2 - u ^ 2)) by (apply sqrt_lt_R0; nra). lra.
    - intros u v Hu Hv. assert (u ^ 2 < Rad ^ 2) by nra. apply SL in Hv; [|lra]. assert (0 < sqrt (Rad ^ 2 - u ^ 2 - v ^ 2)) by (apply sqrt_lt_R0; lra). lra. }
  destruct (C41_rules_exist (1%nat :: nil)) as (gl1 & G1).
  assert (EN := proj2 (C41_sphere gl1 mass Rad 1 G1 (proj1 Hr) Hm ltac:(lia))).
  assert (MD : forall n pts, (exists gl dd, (n < dd)%nat /\ rules_at gl (dd :: nil) /\ gl_sphere gl mass Rad dd = Ok pts) -> gmade mass (ball_region Rad) (cube_span Rad) n pts).
  { intros n pts (gl & dd & Hd & GR & E). assert (G := GR dd ltac:(cbn; tauto)). unfold gl_sphere in E. rewrite leg_ok in E by lia. cbn [bind] in E. rewrite is0_no in E by exact HV. cbv zeta in E. apply list_ok in E. destruct E as (E & _).
    refine (ex_intro _ dd (ex_intro _ dd (ex_intro _ dd (ex_intro _ (gl dd) (ex_intro _ (gl dd) (ex_intro _ (gl dd) (ex_intro _ (mass / (4 / 3 * PI * Rad ^ 3) * Rad ^ 3) (ex_intro _ (fun v : vec => let '(x, y, z) := v in rle (x ^ 2 + y ^ 2 + z ^ 2) (Rad ^ 2)) (ex_intro _ _ (ex_intro _ _ (ex_intro _ _ (conj Hd (conj Hd (conj Hd (conj G (conj G (conj G _))))))))))))))))).
    split; [apply mul_ne; [now apply div_ne|lra]|]. unfold cube_span. fields. split; [|split; [|split; [|split; [|exact E]]]]; try (intros s; cbv beta; field).
    intros [[x y] z] _. unfold ball_region, vnorm. rewrite rle_iff. assert (A := pow2_ge_0 x). assert (B := pow2_ge_0 y). assert (D := pow2_ge_0 z). split; intros H.
    - rewrite <- (sqrt_pow2 Rad) by lra. apply sqrt_le_1_alt. exact H.
    - rewrite <- (pow2_sqrt (x ^ 2 + y ^ 2 + z ^ 2)) by lra. apply pow_incr. split; [apply sqrt_pos|exact H]. }
  split.
  - apply (tends_sub _ _ _ _ MD). apply (gmade_tends _ _ _ (round_ball Rad) mass r C); unfold cube_span; fields; try assumption; try lra.
    + intros g G. apply graph_body; try assumption; [apply (UC_opp Rs); exact Uc|apply (UC_opp P2 (fun p : R * R => sqrt (Rad ^ 2 - fst p ^ 2 - snd p ^ 2))); exact U3|intros f I H; exact H].
    + intros v Hv. unfold ball_region in Hv. lra.
  - intros n. destruct (dec_bool (ball_region Rad)) as (s & Hs). { intros v. unfold ball_region. destruct (Rle_dec (vnorm v) Rad); [now left|now right]. }
    destruct (gcounts_some _ _ _ s Hs C PV) as (N & HN & Q). set (k := (n + N + 1)%nat). destruct (C41_rules_exist (k :: nil)) as (gl & G2). assert (G := G2 k ltac:(cbn; tauto)).
    destruct (proj1 (C41_sphere gl mass Rad k G2 (proj1 Hr) Hm ltac:(unfold k; lia))) as [(pts & E & _)|(_ & NO)]; [exists pts, gl, k; split; [unfold k; lia|split; [exact G2|exact E]]|].
    exfalso. destruct (Q k k k (gl k) (gl k) (gl k)) as (v & w & V1 & V2); try assumption; try (unfold k; lia). exact (NO v w V1 V2).
Qed.

(* ---- bricks ---- *)
Theorem gl_rectangle_tends mass x y z r : mass <> 0 -> 0 < x -> 0 < y -> 0 < z -> 0 <= r -> (x / 2) ^ 2 + (y / 2) ^ 2 + (z / 2) ^ 2 <= r ^ 2 ->
  tends (fun n pts => exists gl dx dy dz, (n < dx)%nat /\ (n < dy)%nat /\ (n < dz)%nat /\ rules_at gl (dx :: dy :: dz :: nil) /\ gl_rectangle gl mass x y z dx dy dz = Ok pts) (of_mass mass (box z x y)) r /\
  forall n, exists pts gl dx dy dz, (n < dx)%nat /\ (n < dy)%nat /\ (n < dz)%nat /\ rules_at gl (dx :: dy :: dz :: nil) /\ gl_rectangle gl mass x y z dx dy dz = Ok pts.
Proof.
  intros Hm Hx Hy Hz H0 Hn. set (bx := mkspan (- x / 2) (x / 2) (- y / 2) (y / 2) (- z / 2) (z / 2)).
  assert (C : gcounts bx (in_span bx) (graph_int (- x / 2) (x / 2) (fun _ => - y / 2) (fun _ => y / 2) (fun _ _ => - z / 2) (fun _ _ => z / 2))).
  { apply graph_gcounts; unfold bx; fields; try lra; try (intros; lra); try apply UC_cst. intros u v w. unfold in_span. fields. tauto. }
  assert (PV : 0 < graph_int (- x / 2) (x / 2) (fun _ => - y / 2) (fun _ => y / 2) (fun _ _ => - z / 2) (fun _ _ => z / 2) (fun _ => 1)).
  { apply graph_volume; try lra; try (intros; lra); apply UC_cst. }
  assert (MD : forall n pts, (exists gl dx dy dz, (n < dx)%nat /\ (n < dy)%nat /\ (n < dz)%nat /\ rules_at gl (dx :: dy :: dz :: nil) /\ gl_rectangle gl mass x y z dx dy dz = Ok pts) -> gmade mass (in_span bx) bx n pts).
  { intros n pts (gl & dx & dy & dz & D1 & D2 & D3 & G & E). assert (G1 := G dx ltac:(cbn; tauto)). assert (G2 := G dy ltac:(cbn; tauto)). assert (G3 := G dz ltac:(cbn; tauto)). destruct (C41_rectangle_mass gl mass x y z dx dy dz G ltac:(lia) ltac:(lia) ltac:(lia)) as (pts' & E' & LN & TM). rewrite E in E'. injection E' as <-.
    unfold gl_rectangle in E. rewrite !leg_ok in E by lia. cbn [bind] in E.
    refine (ex_intro _ dx (ex_intro _ dy (ex_intro _ dz (ex_intro _ (gl dx) (ex_intro _ (gl dy) (ex_intro _ (gl dz) (ex_intro _ (mass / 8) (ex_intro _ (fun _ : vec => true) (ex_intro _ (fun s => s * x / 2) (ex_intro _ (fun s => s * y / 2) (ex_intro _ (fun s => s * z / 2) (conj D1 (conj D2 (conj D3 (conj G1 (conj G2 (conj G3 _))))))))))))))))).
    split; [lra|]. unfold bx. fields. split; [tauto|]. do 3 (split; [intros s; field|]). assert (FT : forall l : list pt, filter (fun _ => true) l = l) by (induction l as [|a l IH]; [reflexivity|cbn; now rewrite IH]). rewrite FT. injection E as ->.
    unfold correct_mass. destruct pts as [|p l]; [cbn in TM; lra|]. set (q := p :: l) in *. rewrite <- total_sum, TM. rewrite is0_no by exact Hm. f_equal.
    rewrite (map_ext _ (fun p => p)); [apply map_id|]. intros [m v]. cbn [pm pp]. f_equal. field. exact Hm. }
  split.
  - apply (tends_sub _ _ _ _ MD). apply (gmade_tends bx _ _ (box z x y) mass r C); unfold bx; fields; try assumption; try lra.
    + intros g G. apply graph_body; try assumption; try apply UC_cst. intros f I H; exact H.
    + intros [[a b] c]. unfold in_span. fields. intros (A1 & A2 & A3). apply vnorm_le; [exact H0|]. assert (a ^ 2 <= (x / 2) ^ 2) by (apply sq_le; [lra|apply Rabs_le_between; lra]). assert (b ^ 2 <= (y / 2) ^ 2) by (apply sq_le; [lra|apply Rabs_le_between; lra]). assert (c ^ 2 <= (z / 2) ^ 2) by (apply sq_le; [lra|apply Rabs_le_between; lra]). lra.
    + intros v H. exact H.
  - intros n. destruct (C41_rules_exist (Datatypes.S n :: Datatypes.S n :: Datatypes.S n :: nil)) as (gl & G).
    destruct (C41_rectangle_mass gl mass x y z (Datatypes.S n) (Datatypes.S n) (Datatypes.S n) G ltac:(lia) ltac:(lia) ltac:(lia)) as (pts & E & _). exists pts, gl, (Datatypes.S n), (Datatypes.S n), (Datatypes.S n). do 3 (split; [lia|]). split; [exact G|exact E].
Qed.
