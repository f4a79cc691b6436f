(* The triangular prism of newt/gShapeGL.py, whose points cover only the middle half of the range of y. *)
From Coq Require Import Reals Lra Lia List Bool.
From Coquelicot Require Import Coquelicot.
From Verif Require Import Glib Res LipInt BodyInt SolidSpec VInt PointSpec NewtonSpec Newton ShapeSpec GLSpec GLPoints GShapeGL GlibShapes GlibShapesProofs Props_GlibShapes Props_GlibShapes2 GLProofs Props_GL Props_GL2 Gauss Props_GL3 QlmProofs3 RefineSpec Refine2 Refine3 Refine4 Refine5 Polar Refine7 Refine8 Refine9 Refine10 GLRefineSpec.
From Verif Require Import Cplx.
From Verif Require Import Refine GLEven GLLimit GLCount GLPieces GLTends GLShapes GLSolid.
Import ListNotations.
Open Scope R_scope.

Lemma UC_min (X : pspace) (f g : X -> R) : UC X Rs f -> UC X Rs g -> UC X Rs (fun x => Rmin (f x) (g x)).
Proof.
  intros F G. apply (UC_ext X Rs (fun x => - Rmax (- f x) (- g x))).
  - intros x. unfold Rmax, Rmin. destruct (Rle_dec (- f x) (- g x)), (Rle_dec (f x) (g x)); lra.
  - apply (UC_opp X (fun x => Rmax (- f x) (- g x))). apply UC_max; now apply UC_opp.
Qed.
Lemma div_le_iff a b c : 0 < b -> (a / b <= c <-> a <= c * b).
Proof. intros Hb. split; intros H; [apply (Rmult_le_reg_r (/ b)); [now apply Rinv_0_lt_compat|]; replace (c * b * / b) with c by (field; lra); exact H|apply (Rmult_le_reg_r b); [exact Hb|]; replace (a / b * b) with a by (field; lra); exact H]. Qed.
Lemma le_div_iff a b c : 0 < b -> (c <= a / b <-> c * b <= a).
Proof. intros Hb. split; intros H; [apply (Rmult_le_reg_r (/ b)); [now apply Rinv_0_lt_compat|]; replace (c * b * / b) with c by (field; lra); exact H|apply (Rmult_le_reg_r b); [exact Hb|]; replace (a / b * b) with a by (field; lra); exact H]. Qed.
Lemma div_lt_iff a b c : 0 < b -> (a / b < c <-> a < c * b).
Proof. intros Hb. assert (A := le_div_iff a b c Hb). split; intros H; apply Rnot_le_lt; intros K; apply A in K; lra. Qed.
Lemma lt_div_iff a b c : 0 < b -> (c < a / b <-> c * b < a).
Proof. intros Hb. assert (A := div_le_iff a b c Hb). split; intros H; apply Rnot_le_lt; intros K; apply A in K; lra. Qed.
Section Prism.
Variables (d y1 y2 t : R).
Hypotheses (Hd : 0 < d) (Hy : 0 <= y1 < y2) (Ht : 0 < t).
Let top := 3 * d * y2 / Rmax (3 * y2) (4 * y1).
Let lo (x : R) := Rmax (x * y1 / d) (y2 / 4).
Let hi (x : R) := Rmin (x * y2 / d) (3 * y2 / 4).
Definition mid_span : span := mkspan 0 d (y2 / 4) (3 * y2 / 4) (- (t / 2)) (t / 2).
Definition mid_region : region := fun v => triangle_region d y1 y2 t v /\ in_span mid_span v.
Lemma tri_is_mid : tri_span d y1 y2 t = mid_span.
Proof using Hy. unfold tri_span, mid_span. cbv zeta. rewrite (Rmin_left 0 y1), (Rmax_right 0 y2) by lra. f_equal; field. Qed.
Lemma top_pos : 0 < Rmax (3 * y2) (4 * y1). Proof using Hy. apply Rlt_le_trans with (3 * y2); [lra|apply Rmax_l]. Qed.
Lemma top_iff x : x <= top <-> x <= d /\ x * (4 * y1) <= 3 * d * y2 .
Proof using Hd Hy.
  unfold top. rewrite le_div_iff by apply top_pos. unfold Rmax. destruct (Rle_dec (3 * y2) (4 * y1)) as [K|K].
  - split; [|tauto]. intros H. split; [|exact H]. apply (Rmult_le_reg_r (4 * y1)); [lra|]. apply Rle_trans with (3 * d * y2); [exact H|]. nra.
  - split.
    + intros H. assert (x <= d) by (apply (Rmult_le_reg_r (3 * y2)); [lra|nra]). split; [assumption|]. destruct (Rle_dec 0 x); nra.
    + intros (H & _). nra.
Qed.
Lemma top_low : d / 4 < top.
Proof using Hd Hy.
  unfold top. apply lt_div_iff; [apply top_pos|]. unfold Rmax. destruct (Rle_dec (3 * y2) (4 * y1)) as [K|K]; nra.
Qed.
Lemma lo_iff x v : lo x <= v <-> x * y1 / d <= v /\ y2 / 4 <= v. Proof. unfold lo, Rmax. destruct (Rle_dec (x * y1 / d) (y2 / 4)); split; intros; try split; try tauto; lra. Qed.
Lemma hi_iff x v : v <= hi x <-> v <= x * y2 / d /\ v <= 3 * y2 / 4. Proof. unfold hi, Rmin. destruct (Rle_dec (x * y2 / d) (3 * y2 / 4)); split; intros; try split; try tauto; lra. Qed.
Lemma mid_iff u v w : mid_region (u, v, w) <-> d / 4 <= u <= top /\ lo u <= v <= hi u /\ - (t / 2) <= w <= t / 2.
Proof using Hd Hy.
  unfold mid_region, triangle_region, in_span, mid_span. fields. rewrite lo_iff, hi_iff, top_iff. rewrite !(div_le_iff (u * y1)), !(le_div_iff (u * y2)) by exact Hd. rewrite Rabs_le_between. split.
  - intros ((A & (B1 & B2) & C) & (D & E & F)). repeat split; try lra; try tauto.
    + apply Rnot_lt_le. intros K. nra.
    + nra.
  - intros ((A1 & A2 & A3) & ((B1 & B2) & B3 & B4) & C1 & C2). repeat split; try lra; try tauto.
Qed.
Lemma lo_hi u : d / 4 <= u <= top -> lo u <= hi u.
Proof using Hd Hy.
  intros (A & B). apply top_iff in B. destruct B as (B & C). rewrite lo_iff, !hi_iff.
  assert (E0 : u * y1 / d <= u * y2 / d) by (apply div_le_iff; [exact Hd|]; replace (u * y2 / d * d) with (u * y2) by (field; lra); nra).
  assert (E1 : u * y1 / d <= 3 * y2 / 4) by (apply div_le_iff; [exact Hd|]; lra). assert (E2 : y2 / 4 <= u * y2 / d) by (apply le_div_iff; [exact Hd|nra]).
  repeat split; lra.
Qed.
Lemma lo_hi_lt u : d / 4 < u < top -> lo u < hi u.
Proof using Hd Hy.
  intros (A & B). assert (B' := proj1 (top_iff u) ltac:(lra)). destruct B' as (B1 & B2).
  assert (B3 : u * (4 * y1) < 3 * d * y2). { destruct (Rle_lt_dec (3 * d * y2) (u * (4 * y1))) as [K|K]; [|exact K]. exfalso. unfold top in B. apply lt_div_iff in B; [|apply top_pos]. assert (M := Rmax_r (3 * y2) (4 * y1)). nra. }
  assert (E1 : u * y1 / d < u * y2 / d) by (apply div_lt_iff; [exact Hd|]; replace (u * y2 / d * d) with (u * y2) by (field; lra); nra).
  assert (E2 : u * y1 / d < 3 * y2 / 4) by (apply div_lt_iff; [exact Hd|]; nra). assert (E3 : y2 / 4 < u * y2 / d) by (apply lt_div_iff; [exact Hd|nra]).
  unfold lo, hi. apply Rmax_lub_lt; apply Rmin_glb_lt; lra.
Qed.
Lemma U_lo : UC Rs Rs lo. Proof. apply (UC_max Rs (fun x : R => x * y1 / d) (fun _ => y2 / 4)); [|apply UC_cst]. apply (UC_ext Rs Rs (fun x : R => y1 / d * x)); [intros x; change (@eq R (y1 / d * x) (x * y1 / d)); unfold Rdiv; ring|]. apply UC_mult; [apply UC_cst|apply UC_LL, LL_id]. Qed.
Lemma U_hi : UC Rs Rs hi. Proof. apply (UC_min Rs (fun x : R => x * y2 / d) (fun _ => 3 * y2 / 4)); [|apply UC_cst]. apply (UC_ext Rs Rs (fun x : R => y2 / d * x)); [intros x; change (@eq R (y2 / d * x) (x * y2 / d)); unfold Rdiv; ring|]. apply UC_mult; [apply UC_cst|apply UC_LL, LL_id]. Qed.
Theorem gl_prism_tends mass r : mass <> 0 -> 0 <= r -> d ^ 2 + (3 * y2 / 4) ^ 2 + (t / 2) ^ 2 <= r ^ 2 ->
  tends (fun n pts => exists gl dx dy dz, (n < dx)%nat /\ (n < dy)%nat /\ (n < dz)%nat /\ rules_at gl (dx :: dy :: dz :: nil) /\ gl_tri_prism gl mass d y1 y2 t dx dy dz = Ok pts) (of_mass mass (middle_prism t d y1 y2)) r /\
  forall n, exists pts gl dx dy dz, (n < dx)%nat /\ (n < dy)%nat /\ (n < dz)%nat /\ rules_at gl (dx :: dy :: dz :: nil) /\ gl_tri_prism gl mass d y1 y2 t dx dy dz = Ok pts.
Proof using Hd Hy Ht.
  intros Hm H0 Hn. assert (TL := top_low). assert (TD : top <= d) by (apply (top_iff top); lra).
  assert (C : gcounts mid_span mid_region (graph_int (d / 4) top lo hi (fun _ _ => - (t / 2)) (fun _ _ => t / 2))).
  { apply graph_gcounts; unfold mid_span; fields; try lra; try apply UC_cst; try apply U_lo; try apply U_hi.
    - intros u Hu. split; [apply Rmax_r|]. split; [now apply lo_hi|apply Rmin_r].
    - intros; lra.
    - intros u v w. apply mid_iff. }
  assert (PV : 0 < graph_int (d / 4) top lo hi (fun _ _ => - (t / 2)) (fun _ _ => t / 2) (fun _ => 1)).
  { apply graph_volume; try lra; try apply UC_cst; try apply U_lo; try apply U_hi; [|intros; lra]. intros u Hu. now apply lo_hi_lt. }
  assert (MD : forall n pts, (exists gl dx dy dz, (n < dx)%nat /\ (n < dy)%nat /\ (n < dz)%nat /\ rules_at gl (dx :: dy :: dz :: nil) /\ gl_tri_prism gl mass d y1 y2 t dx dy dz = Ok pts) -> gmade mass mid_region mid_span n pts).
  { intros n pts (gl & dx & dy & dz & D1 & D2 & D3 & G & E). assert (G1 := G dx ltac:(cbn; tauto)). assert (G2 := G dy ltac:(cbn; tauto)). assert (G3 := G dz ltac:(cbn; tauto)).
    unfold gl_tri_prism in E. rewrite (proj2 (rlt_no y2 y1)) in E by lra. cbv zeta in E. rewrite !leg_ok in E by lia. cbn [bind] in E. rewrite (Rmin_left 0 y1), (Rmax_right 0 y2) in E by lra. apply list_ok in E. destruct E as (E & _).
    refine (ex_intro _ dx (ex_intro _ dy (ex_intro _ dz (ex_intro _ (gl dx) (ex_intro _ (gl dy) (ex_intro _ (gl dz) (ex_intro _ 1 (ex_intro _ (fun v : vec => let '(x, y, _) := v in (rle (x * y1) (y * d) && rle (y * d) (x * y2))%bool) (ex_intro _ _ (ex_intro _ _ (ex_intro _ _ (conj D1 (conj D2 (conj D3 (conj G1 (conj G2 (conj G3 _))))))))))))))))).
    split; [lra|]. split; [|split; [|split; [|split; [|exact E]]]]; try (intros s; unfold mid_span; fields; cbv beta; field).
    intros [[x y] z] Hv. unfold mid_region. rewrite andb_true_iff, !rle_iff. unfold triangle_region. rewrite div_le_iff, le_div_iff by exact Hd. split.
    - intros (K1 & K2). split; [|exact Hv]. unfold in_span, mid_span in Hv. fields. rewrite Rabs_le_between. tauto.
    - tauto. }
  split.
  - apply (tends_sub _ _ _ _ MD). apply (gmade_tends _ _ _ (middle_prism t d y1 y2) mass r C); unfold mid_span; fields; try assumption; try lra.
    + intros g G. apply graph_body; try assumption; try apply UC_cst; try apply U_lo; try apply U_hi. intros f I H; exact H.
    + intros [[a b] c] (_ & Hv). unfold in_span, mid_span in Hv. cbn [s_x0 s_x1 s_y0 s_y1 s_z0 s_z1] in Hv. destruct Hv as (A1 & A2 & A3). apply vnorm_le; [exact H0|]. assert (a ^ 2 <= d ^ 2) by (apply sq_le; [lra|apply Rabs_le_between; lra]). assert (b ^ 2 <= (3 * y2 / 4) ^ 2) by (apply sq_le; [lra|apply Rabs_le_between; lra]). assert (c ^ 2 <= (t / 2) ^ 2) by (apply sq_le; [lra|apply Rabs_le_between; lra]). lra.
    + intros v (_ & H). exact H.
  - intros n. destruct (dec_bool mid_region) as (s & Hs). { intros [[x y] z]. assert (I := mid_iff x y z). destruct (Rle_dec (d / 4) x), (Rle_dec x top), (Rle_dec (lo x) y), (Rle_dec y (hi x)), (Rle_dec (- (t / 2)) z), (Rle_dec z (t / 2)); try (left; tauto); right; tauto. }
    destruct (gcounts_some _ _ _ s Hs C PV) as (N & HN & Q). set (k := (n + N + 1)%nat). destruct (C41_rules_exist (k :: k :: k :: nil)) as (gl & G). assert (Gk := G k ltac:(cbn; tauto)).
    destruct (C41_tri_prism gl mass d y1 y2 t k k k G Hd ltac:(lra) Ht ltac:(unfold k; lia) ltac:(unfold k; lia) ltac:(unfold k; lia)) as [(pts & E & _)|(_ & NO)]; [exists pts, gl, k, k, k; do 3 (split; [unfold k; lia|]); split; [exact G|exact E]|].
    exfalso. destruct (Q k k k (gl k) (gl k) (gl k)) as (v & w & V1 & V2); try assumption; try (unfold k; lia). apply (NO v w); [rewrite tri_is_mid; exact V1|exact (proj1 V2)].
Qed.
End Prism.
