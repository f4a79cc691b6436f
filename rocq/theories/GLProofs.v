(* Proofs about gShapeGL.py *)
From Verif Require Import GShapeGL GLPoints MomentSpec Qlm MathSpec GlibShapes GlibShapesProofs.
From Coq Require Import Reals List ZArith Bool Lia Lra Sorting.
From Coquelicot Require Import Coquelicot.
Import ListNotations.
Open Scope R_scope.

Lemma in_gl_grid c rx ry rz fx fy fz p : In p (gl_grid c rx ry rz fx fy fz) <->
  exists x y z, In x rx /\ In y ry /\ In z rz /\ p = mkpt (c * (snd x * snd y * snd z)) (fx (fst x), fy (fst y), fz (fst z)).
Proof.
  unfold gl_grid. rewrite in_flat_map. split.
  - intros (z & Hz & H). apply in_flat_map in H. destruct H as (y & Hy & H). apply in_map_iff in H. destruct H as (x & <- & Hx). now exists x, y, z.
  - intros (x & y & z & Hx & Hy & Hz & ->). exists z. split; [assumption|]. apply in_flat_map. exists y. split; [assumption|]. apply in_map_iff. now exists x.
Qed.
Lemma total_sum pts : total_mass pts = sumR (map pm pts).
Proof. induction pts as [|p l IH]; [reflexivity|]. cbn [total_mass fold_right map sumR] in *. unfold total_mass, sumR in IH. now rewrite IH. Qed.
Lemma sumR_scal c l : sumR (map (fun p => pm p * c) l) = sumR (map pm l) * c.
Proof. induction l as [|p l IH]; [cbn; ring|]. cbn [map sumR fold_right] in *. unfold sumR in IH. rewrite IH. ring. Qed.
Lemma sumR_sign c l : c <> 0 -> l <> nil -> (forall p, In p l -> exists w, 0 < w /\ pm p = c * w) -> sumR (map pm l) <> 0.
Proof.
  intros Hc Hl H. assert (K : exists w, 0 <= w /\ sumR (map pm l) = c * w /\ (l <> nil -> 0 < w)).
  { clear Hl. induction l as [|p l IH]; [exists 0; split; [lra|]; split; [cbn; ring|intros Q; now contradiction Q]|].
    destruct IH as (w & W1 & W2 & _); [intros q Hq; apply H; now right|]. destruct (H p (or_introl eq_refl)) as (w' & W3 & W4). exists (w' + w). split; [lra|]. split; [|intros _; lra].
    cbn [map sumR fold_right] in *. unfold sumR in W2. rewrite W2, W4. ring. }
  destruct K as (w & _ & -> & K). specialize (K Hl). intros Q. apply Rmult_integral in Q. destruct Q; lra.
Qed.
Lemma correct_ok mass c pts : c <> 0 -> (forall p, In p pts -> exists w, 0 < w /\ pm p = c * w) ->
  exists d, correct_mass mass pts = Ok (map (fun p => mkpt (pm p * d) (pp p)) pts) /\ (pts <> nil -> sumR (map pm pts) * d = mass).
Proof.
  intros Hc H. destruct pts as [|p l]; [exists 0; split; [reflexivity|intros Q; now contradiction Q]|]. set (pts := p :: l) in *. assert (K : sumR (map pm pts) <> 0) by (apply (sumR_sign c); [assumption|discriminate|assumption]).
  exists (mass / sumR (map pm pts)). split; [|intros _; field; assumption]. unfold correct_mass. subst pts. cbv beta iota zeta. rewrite is0_no by assumption. reflexivity.
Qed.
Definition good (r : rule) : Prop := forall p, In p r -> -1 < fst p < 1 /\ 0 < snd p.
Lemma gl_grid_fills mass S b rx ry rz c fx fy fz test : c <> 0 -> good rx -> good ry -> good rz ->
  (forall s, fx s = (s_x0 b + s_x1 b) / 2 + s * ((s_x1 b - s_x0 b) / 2)) ->
  (forall s, fy s = (s_y0 b + s_y1 b) / 2 + s * ((s_y1 b - s_y0 b) / 2)) ->
  (forall s, fz s = (s_z0 b + s_z1 b) / 2 + s * ((s_z1 b - s_z0 b) / 2)) ->
  s_x0 b < s_x1 b -> s_y0 b < s_y1 b -> s_z0 b < s_z1 b ->
  (forall p, in_span b (pp p) -> (test p = true <-> S (pp p))) ->
  let l := filter test (gl_grid c rx ry rz fx fy fz) in
  exists pts, correct_mass mass l = Ok pts /\ (pts = nil <-> l = nil) /\ gl_fills mass S b rx ry rz pts.
Proof.
  intros Hc G1 G2 G3 Fx Fy Fz L1 L2 L3 HT l.
  assert (IS : forall s a b', -1 < s < 1 -> a < b' -> a <= (a + b') / 2 + s * ((b' - a) / 2) <= b') by (intros; split; nra).
  assert (HL : forall p, In p l -> exists w, 0 < w /\ pm p = c * w /\ on_rules b rx ry rz (pp p) w /\ S (pp p)).
  { intros p Hp. apply filter_In in Hp. destruct Hp as [Hp Ht]. apply in_gl_grid in Hp. destruct Hp as ((sx, wx) & (sy, wy) & (sz, wz) & Hx & Hy & Hz & ->). cbn [fst snd pp pm] in *.
    destruct (G1 _ Hx) as [X1 X2]. destruct (G2 _ Hy) as [Y1 Y2]. destruct (G3 _ Hz) as [Z1 Z2]. cbn [fst snd] in *.
    exists (wx * wy * wz). split; [repeat apply Rmult_lt_0_compat; assumption|]. split; [reflexivity|]. rewrite Fx, Fy, Fz in *. split.
    - exists wx, wy, wz. split; [now exists sx|]. split; [now exists sy|]. split; [now exists sz|reflexivity].
    - apply (HT _) in Ht; [exact Ht|]. cbn [pp]. unfold in_span. split; [now apply IS|]. split; now apply IS. }
  destruct (correct_ok mass c l Hc) as (d & E & D). { intros p Hp. destruct (HL p Hp) as (w & W1 & W2 & _). now exists w. }
  eexists. split; [exact E|]. split; [destruct l; split; (reflexivity || discriminate)|]. split; [|split].
  - intros v. rewrite map_map. cbn [pp]. rewrite in_map_iff. split.
    + intros (p & <- & Hp). destruct (HL p Hp) as (w & _ & _ & W3 & W4). split; [now exists w|assumption].
    + destruct v as [[x y] z]. intros ((w & wx & wy & wz & (sx & Hx & ->) & (sy & Hy & ->) & (sz & Hz & ->) & _) & HS).
      exists (mkpt (c * (wx * wy * wz)) (fx sx, fy sy, fz sz)). cbn [pp]. rewrite Fx, Fy, Fz. split; [reflexivity|]. apply filter_In. split.
      * apply in_gl_grid. exists (sx, wx), (sy, wy), (sz, wz). split; [assumption|]. split; [assumption|]. split; [assumption|]. cbn [fst snd]. now rewrite Fx, Fy, Fz.
      * apply HT; [|exact HS]. cbn [pp]. destruct (G1 _ Hx) as [X1 _]. destruct (G2 _ Hy) as [Y1 _]. destruct (G3 _ Hz) as [Z1 _]. cbn [fst] in *. unfold in_span. split; [now apply IS|]. split; now apply IS.
  - exists (c * d). intros p Hp. apply in_map_iff in Hp. destruct Hp as (q & <- & Hq). destruct (HL q Hq) as (w & W1 & W2 & W3 & _). exists w. cbn [pp pm]. split; [exact W3|]. rewrite W2. ring.
  - intros HN. rewrite total_sum, map_map. cbn [pm]. rewrite sumR_scal. apply D. intros K. rewrite K in HN. now apply HN.
Qed.
Lemma good_gauss n r : gauss_rule n r -> good r. Proof. intros H p Hp. now apply (gr_in n r H). Qed.
Lemma good_first n r : good r -> good (firstn n r).
Proof. intros H p Hp. apply H. rewrite <- (firstn_skipn n r). apply in_or_app. now left. Qed.
Lemma quad_ext r f g : (forall x, f x = g x) -> quad r f = quad r g.
Proof. intros E. induction r as [|p r IH]; [reflexivity|]. cbn. unfold quad in IH. now rewrite IH, E. Qed.
Lemma quad_scal r c f : quad r (fun x => c * f x) = c * quad r f.
Proof. induction r as [|p r IH]; [cbn; ring|]. cbn. unfold quad in IH. rewrite IH. ring. Qed.
Lemma quad_pow n r k : gauss_rule n r -> (k < 2 * n)%nat -> quad r (fun x => x ^ k) = (1 - (-1) ^ S k) / INR (S k).
Proof.
  intros G Hk. assert (K := gr_exact n r G k Hk). apply (is_RInt_unique (V := R_CompleteNormedModule)) in K. rewrite <- K.
  assert (HS : INR (S k) <> 0) by (apply not_0_INR; discriminate).
  assert (J : is_RInt (fun x => x ^ k) (-1) 1 (1 ^ S k / INR (S k) - (-1) ^ S k / INR (S k))).
  { apply (is_RInt_derive (V := R_CompleteNormedModule) (fun x => x ^ S k / INR (S k)) (fun x => x ^ k)).
    - intros x _. auto_derive; [exact I|]. change (match k with 0%nat => 1 | S _ => INR k + 1 end) with (INR (S k)). field. assumption.
    - intros x _. apply (ex_derive_continuous (V := R_NormedModule)). auto_derive. exact I. }
  apply (is_RInt_unique (V := R_CompleteNormedModule)) in J. rewrite J, pow1. field. assumption.
Qed.
Lemma quad_1 n r : gauss_rule n r -> (0 < n)%nat -> quad r (fun _ => 1) = 2.
Proof. intros G Hn. rewrite (quad_ext r _ (fun x => x ^ 0)) by reflexivity. rewrite (quad_pow n r 0 G) by lia. cbn. field. Qed.
(* sums over the grid split into the three rules *)
Lemma lsumR_app f l1 l2 : sumR (map f (l1 ++ l2)) = sumR (map f l1) + sumR (@map pt R f l2).
Proof. induction l1 as [|a l IH]; [change (sumR (map f l2) = 0 + sumR (map f l2)); ring|]. cbn [app map sumR fold_right] in *. unfold sumR in IH. rewrite IH. unfold sumR. ring. Qed.
Lemma sumR_flat {A} (f : pt -> R) (g : A -> list pt) l : sumR (map f (flat_map g l)) = sumR (map (fun a => sumR (map f (g a))) l).
Proof. induction l as [|a l IH]; [reflexivity|]. cbn [flat_map map]. rewrite lsumR_app, IH. reflexivity. Qed.
Lemma sumR_quad (r : rule) f g : (forall p, g p = snd p * f (fst p)) -> sumR (map g r) = quad r f.
Proof. intros E. induction r as [|p r IH]; [reflexivity|]. cbn. unfold sumR, quad in IH. now rewrite IH, E. Qed.
Lemma grid_product c rx ry rz fx fy fz (X Y Z : R -> R) (F : pt -> R) : (forall m x y z, F (mkpt m (x, y, z)) = m * (X x * Y y * Z z)) ->
  sumR (map F (gl_grid c rx ry rz fx fy fz)) = c * (quad rx (fun s => X (fx s)) * quad ry (fun s => Y (fy s)) * quad rz (fun s => Z (fz s))).
Proof.
  intros HF. unfold gl_grid. rewrite sumR_flat.
  rewrite (sumR_quad rz (fun s => c * (quad rx (fun s => X (fx s)) * quad ry (fun s => Y (fy s))) * Z (fz s))). { rewrite quad_scal. ring. }
  intros pz. rewrite sumR_flat. rewrite (sumR_quad ry (fun s => c * (quad rx (fun s => X (fx s)) * snd pz * Z (fz (fst pz))) * Y (fy s))). { rewrite quad_scal. ring. }
  intros py. rewrite map_map. rewrite (sumR_quad rx (fun s => c * (snd py * snd pz * Y (fy (fst py)) * Z (fz (fst pz))) * X (fx s))). { rewrite quad_scal. ring. }
  intros px. rewrite HF. ring.
Qed.
