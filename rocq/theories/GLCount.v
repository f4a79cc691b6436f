(* Gauss-Legendre points of a region of space summed against an integral over it: regions bounded by graphs, disjoint unions of them,
   and the arrays of newt/gShapeGL.py that fill them. *)
From Coq Require Import Reals Lra Lia List.
From Coquelicot Require Import Coquelicot.
From Verif Require Import Glib LipInt BodyInt NewtonSpec PointSpec GLSpec Gauss Refine Refine2 Refine4 Refine5 Polar Refine7 GLEven GLLimit Props_GL3.
Open Scope R_scope.

Definition rule_sum3 (a1 b1 a2 b2 a3 b3 : R) (r1 r2 r3 : list (R * R)) (s1 : R -> bool) (s2 : R -> R -> bool) (s3 : R -> R -> R -> bool) (F : R -> R -> R -> R) : R :=
  gq a1 b1 r1 (fun u => chi (s1 u) * gq a2 b2 r2 (fun v => chi (s2 u v) * gq a3 b3 r3 (fun w => chi (s3 u v w) * F u v w))).
Theorem rule_limit (X : pspace) (a1 b1 a2 b2 a3 b3 e f : R) (lo1 hi1 : R -> R) (lo2 hi2 : R -> R -> R) (s1 : R -> bool) (s2 : R -> R -> bool) (s3 : R -> R -> R -> bool) (F : X -> R -> R -> R -> R) :
  a1 < b1 -> a2 < b2 -> a3 < b3 -> a1 <= e -> e <= f -> f <= b1 ->
  (forall u, e <= u <= f -> a2 <= lo1 u /\ lo1 u <= hi1 u /\ hi1 u <= b2) ->
  (forall u v, e <= u <= f -> lo1 u <= v <= hi1 u -> a3 <= lo2 u v /\ lo2 u v <= hi2 u v /\ hi2 u v <= b3) ->
  UC Rs Rs lo1 -> UC Rs Rs hi1 -> UC P2 Rs (fun p => lo2 (fst p) (snd p)) -> UC P2 Rs (fun p => hi2 (fst p) (snd p)) ->
  UC (pprod (pprod (pprod X Rs) Rs) Rs) Rs (fun p => F (fst (fst (fst p))) (snd (fst (fst p))) (snd (fst p)) (snd p)) ->
  (forall u, s1 u = true -> e <= u <= f) -> (forall u, e < u < f -> s1 u = true) ->
  (forall u v, e <= u <= f -> s2 u v = true -> lo1 u <= v <= hi1 u) -> (forall u v, e <= u <= f -> lo1 u < v < hi1 u -> s2 u v = true) ->
  (forall u v w, e <= u <= f -> lo1 u <= v <= hi1 u -> s3 u v w = true -> lo2 u v <= w <= hi2 u v) -> (forall u v w, e <= u <= f -> lo1 u <= v <= hi1 u -> lo2 u v < w < hi2 u v -> s3 u v w = true) ->
  let G := fun x u v => RInt (fun w => F x u v w) (lo2 u v) (hi2 u v) in let H := fun x u => RInt (fun v => G x u v) (lo1 u) (hi1 u) in let I := fun x => RInt (fun u => H x u) e f in
  (forall x u v, is_RInt (fun w => F x u v w) (lo2 u v) (hi2 u v) (G x u v)) /\ (forall x u, is_RInt (fun v => G x u v) (lo1 u) (hi1 u) (H x u)) /\ (forall x, is_RInt (fun u => H x u) e f (I x)) /\ UC X Rs I /\
  forall A0 eps, 0 < eps -> exists N, (0 < N)%nat /\ forall n1 n2 n3 r1 r2 r3 x, (N <= n1)%nat -> (N <= n2)%nat -> (N <= n3)%nat -> gauss_rule n1 r1 -> gauss_rule n2 r2 -> gauss_rule n3 r3 -> sn X x <= A0 ->
    Rabs (rule_sum3 a1 b1 a2 b2 a3 b3 r1 r2 r3 s1 s2 s3 (F x) - I x) <= eps.
Proof.
  intros H1 H2 H3 He1 He2 He3 Hb1 Hb2 U1 U2 U3 U4 UF S1 S1' S2 S2' S3 S3' G H I.
  assert (T0 : forall Y Z, UC (pprod Y Z) Z (fun p => snd p)) by (intros Y Z; apply UC_LL, LL_snd).
  assert (TL : UC (pprod (pprod X Rs) Rs) P2 (fun p => (snd (fst p), snd p))).
  { apply (UC_pair (pprod (pprod X Rs) Rs) Rs Rs (fun p => snd (fst p)) (fun p => snd p)); [|apply (T0 (pprod X Rs) Rs)]. exact (UC_comp (pprod (pprod X Rs) Rs) (pprod X Rs) Rs fst snd (UC_LL _ _ _ (LL_fst (pprod X Rs) Rs)) (T0 X Rs)). }
  assert (UG : UC (pprod (pprod X Rs) Rs) Rs (fun p => G (fst (fst p)) (snd (fst p)) (snd p))).
  { apply (UC_int (pprod (pprod X Rs) Rs) (fun p => F (fst (fst (fst p))) (snd (fst (fst p))) (snd (fst p)) (snd p)) (fun p => lo2 (snd (fst p)) (snd p)) (fun p => hi2 (snd (fst p)) (snd p))); [exact UF| |].
    - exact (UC_comp (pprod (pprod X Rs) Rs) P2 Rs (fun p => (snd (fst p), snd p)) (fun p => lo2 (fst p) (snd p)) TL U3).
    - exact (UC_comp (pprod (pprod X Rs) Rs) P2 Rs (fun p => (snd (fst p), snd p)) (fun p => hi2 (fst p) (snd p)) TL U4). }
  assert (UH : UC (pprod X Rs) Rs (fun p => H (fst p) (snd p))).
  { apply (UC_int (pprod X Rs) (fun p => G (fst (fst p)) (snd (fst p)) (snd p)) (fun p => lo1 (snd p)) (fun p => hi1 (snd p))); [exact UG| |].
    - exact (UC_comp (pprod X Rs) Rs Rs (fun p => snd p) lo1 (T0 X Rs) U1).
    - exact (UC_comp (pprod X Rs) Rs Rs (fun p => snd p) hi1 (T0 X Rs) U2). }
  assert (UI : UC X Rs I). { apply (UC_int X (fun p => H (fst p) (snd p)) (fun _ => e) (fun _ => f)); [exact UH| |]; apply UC_LL, LL_const. }
  split; [|split; [|split; [|split; [exact UI|]]]].
  { intros x u v. apply (RInt_correct (V := R_CompleteNormedModule)). exact (UC_ex_RInt (pprod (pprod X Rs) Rs) (fun p => F (fst (fst (fst p))) (snd (fst (fst p))) (snd (fst p)) (snd p)) ((x, u), v) _ _ UF). }
  { intros x u. apply (RInt_correct (V := R_CompleteNormedModule)). exact (UC_ex_RInt (pprod X Rs) (fun p => G (fst (fst p)) (snd (fst p)) (snd p)) (x, u) _ _ UG). }
  { intros x. apply (RInt_correct (V := R_CompleteNormedModule)). exact (UC_ex_RInt X (fun p => H (fst p) (snd p)) x _ _ UH). }
  intros A0 eps Heps.
  set (C := (b1 - a1) * ((b2 - a2) + 1) + 1).
  assert (HC : 0 < C). { unfold C. assert (0 < (b1 - a1) * ((b2 - a2) + 1)); [|lra]. apply Rmult_lt_0_compat; lra. }
  set (eta := eps / C). assert (Het : 0 < eta) by (now apply Rdiv_lt_0_compat).
  set (A := A0 + (Rabs a1 + Rabs b1 + (Rabs a2 + Rabs b2))).
  assert (BB : forall a b t, a <= b -> a <= t <= b -> Rabs t <= Rabs a + Rabs b). { intros a b t Hab Ht. assert (U := Rabs_pos a). assert (U' := Rabs_pos b). apply (btw a b); [rewrite Rmin_left, Rmax_right by lra; lra|lra|lra]. }
  destruct (rule_uc (pprod (pprod X Rs) Rs) (fun p => F (fst (fst (fst p))) (snd (fst (fst p))) (snd (fst p)) (snd p)) a3 b3 A eta H3 UF Het) as (N3 & HN3 & Q3).
  destruct (rule_uc (pprod X Rs) (fun p => G (fst (fst p)) (snd (fst p)) (snd p)) a2 b2 A eta H2 UG Het) as (N2 & HN2 & Q2).
  destruct (rule_uc X (fun p => H (fst p) (snd p)) a1 b1 A eta H1 UH Het) as (N1 & HN1 & Q1).
  exists (N1 + N2 + N3)%nat. split; [lia|]. intros n1 n2 n3 r1 r2 r3 x M1 M2 M3 G1 G2 G3 Hx.
  assert (P1 := Rabs_pos a1). assert (P1' := Rabs_pos b1). assert (P3 := Rabs_pos a2). assert (P3' := Rabs_pos b2).
  set (E2 := (b2 - a2) * eta + eta). assert (HE2 : 0 <= E2). { unfold E2. apply Rplus_le_le_0_compat; [apply Rmult_le_pos; lra|lra]. }
  assert (ERR : forall (s : bool) y z E, 0 <= E -> (s = true -> Rabs (y - z) <= E) -> Rabs (chi s * y - chi s * z) <= E).
  { intros s y z E HE HS. destruct s; cbn; [rewrite !Rmult_1_l; now apply HS|]. rewrite !Rmult_0_l, Rminus_0_r, Rabs_R0. exact HE. }
  unfold rule_sum3. change (I x) with (RInt (fun u => H x u) e f).
  replace eps with ((b1 - a1) * E2 + eta) by (unfold E2, eta, C; unfold C in HC; field; lra).
  apply (via _ (gq a1 b1 r1 (fun u => chi (s1 u) * H x u))).
  - apply (gq_near a1 b1 n1 r1 _ _ E2 H1 ltac:(lia) G1). intros u Hu0. apply ERR; [exact HE2|]. intros Hs. assert (Hu := S1 u Hs). destruct (Hb1 u Hu) as (B1 & B2 & B3). assert (Nu := BB a1 b1 u ltac:(lra) ltac:(lra)).
    unfold E2. apply (via _ (gq a2 b2 r2 (fun v => chi (s2 u v) * G x u v))).
    + apply (gq_near a2 b2 n2 r2 _ _ eta H2 ltac:(lia) G2). intros v Hv0. apply ERR; [lra|]. intros Hs2. assert (Hv := S2 u v Hu Hs2). destruct (Hb2 u v Hu Hv) as (B4 & B5 & B6). assert (Nv := BB a2 b2 v ltac:(lra) ltac:(lra)).
      apply (Q3 n3 r3 ltac:(lia) G3 ((x, u), v) (lo2 u v) (hi2 u v) (s3 u v)); cbn; try assumption; [unfold A; lra| |]; intros w Hw; [now apply S3|now apply S3'].
    + apply (Q2 n2 r2 ltac:(lia) G2 (x, u) (lo1 u) (hi1 u) (s2 u)); cbn; try assumption; [unfold A; lra| |]; intros v Hv; [now apply S2|now apply S2'].
  - apply (Q1 n1 r1 ltac:(lia) G1 x e f s1); cbn; try assumption; unfold A; lra.
Qed.

(* the sum over all points of the three rules in the box *)
Definition gsum (bx : span) (rx ry rz : list (R * R)) (h : vec -> R) : R :=
  gq (s_z0 bx) (s_z1 bx) rz (fun z => gq (s_y0 bx) (s_y1 bx) ry (fun y => gq (s_x0 bx) (s_x1 bx) rx (fun x => h (x, y, z)))).
Lemma gsum_eq bx rx ry rz g h : (forall v, g v = h v) -> gsum bx rx ry rz g = gsum bx rx ry rz h.
Proof. intros H. apply gq_eq. intros z. apply gq_eq. intros y. apply gq_eq. intros x. apply H. Qed.
Lemma gsum_plus bx rx ry rz g h : gsum bx rx ry rz (fun v => g v + h v) = gsum bx rx ry rz g + gsum bx rx ry rz h.
Proof. unfold gsum. rewrite <- gq_plus. apply gq_eq. intros z. rewrite <- gq_plus. apply gq_eq. intros y. apply gq_plus. Qed.
Lemma gq_swap a b r c d q (F : R -> R -> R) : gq a b r (fun x => gq c d q (fun y => F x y)) = gq c d q (fun y => gq a b r (fun x => F x y)).
Proof.
  induction r as [|p r IH].
  - symmetry. apply (gq_zero c d q).
  - change (gq a b (p :: r) (fun x => gq c d q (fun y => F x y))) with (snd p * ((b - a) / 2 * gq c d q (fun y => F ((a + b) / 2 + fst p * ((b - a) / 2)) y)) + gq a b r (fun x => gq c d q (fun y => F x y))). rewrite IH.
    rewrite <- !gq_scal, <- gq_plus. apply gq_eq. intros y. reflexivity.
Qed.
Lemma gq_neg a b n r f : gauss_rule n r -> gq (- b) (- a) r (fun x => f (- x)) = gq a b r f.
Proof.
  intros G. assert (M := C41_rule_symmetric n r G). unfold gq. transitivity (quad (rev (map (fun p => (- fst p, snd p)) r)) (fun t => (- a - - b) / 2 * f (- ((- b + - a) / 2 + t * ((- a - - b) / 2))))).
  - now rewrite M.
  - rewrite quad_mirror. apply quad_ext. intros t. f_equal; [field|]. f_equal. field.
Qed.
(* the sum over the points in S tends to J *)
Definition gcounts (bx : span) (S : region) (J : (vec -> R) -> R) : Prop := forall (X : pspace) (F : X * vec -> R), UC (pprod X V3) Rs F ->
  UC X Rs (fun x => J (fun v => F (x, v))) /\
  forall A eps, 0 < eps -> exists N, (0 < N)%nat /\ forall nx ny nz rx ry rz x (s : vec -> bool), (N <= nx)%nat -> (N <= ny)%nat -> (N <= nz)%nat -> gauss_rule nx rx -> gauss_rule ny ry -> gauss_rule nz rz -> sn X x <= A ->
    (forall v, s v = true <-> S v) -> Rabs (gsum bx rx ry rz (fun v => chi (s v) * F (x, v)) - J (fun v => F (x, v))) <= eps.
Section Graph.
Variables (P : R -> R -> R -> vec) (a1 b1 a2 b2 a3 b3 e f : R) (lo1 hi1 : R -> R) (lo2 hi2 : R -> R -> R) (s1 : R -> bool) (s2 : R -> R -> bool) (s3 : R -> R -> R -> bool).
Hypothesis UP : LL V3 V3 (fun p => P (fst (fst p)) (snd (fst p)) (snd p)).
Hypotheses (H1 : a1 < b1) (H2 : a2 < b2) (H3 : a3 < b3) (Ha : a1 <= e) (He : e <= f) (Hf : f <= b1).
Hypothesis Hb1 : forall u, e <= u <= f -> a2 <= lo1 u /\ lo1 u <= hi1 u /\ hi1 u <= b2.
Hypothesis Hb2 : forall u v, e <= u <= f -> lo1 u <= v <= hi1 u -> a3 <= lo2 u v /\ lo2 u v <= hi2 u v /\ hi2 u v <= b3.
Hypotheses (U1 : UC Rs Rs lo1) (U2 : UC Rs Rs hi1) (U3 : UC P2 Rs (fun p => lo2 (fst p) (snd p))) (U4 : UC P2 Rs (fun p => hi2 (fst p) (snd p))).
Hypotheses (S1 : forall u, s1 u = true -> e <= u <= f) (S1' : forall u, e < u < f -> s1 u = true).
Hypotheses (S2 : forall u v, e <= u <= f -> s2 u v = true -> lo1 u <= v <= hi1 u) (S2' : forall u v, e <= u <= f -> lo1 u < v < hi1 u -> s2 u v = true).
Hypotheses (S3 : forall u v w, e <= u <= f -> lo1 u <= v <= hi1 u -> s3 u v w = true -> lo2 u v <= w <= hi2 u v) (S3' : forall u v w, e <= u <= f -> lo1 u <= v <= hi1 u -> lo2 u v < w < hi2 u v -> s3 u v w = true).
Variables (S : region) (bx : span).
Hypothesis HS : forall u v w, S (P u v w) <-> s1 u = true /\ s2 u v = true /\ s3 u v w = true.
Hypothesis Hlat : forall k nx ny nz rx ry rz, (k <= nx)%nat -> (k <= ny)%nat -> (k <= nz)%nat -> gauss_rule nx rx -> gauss_rule ny ry -> gauss_rule nz rz ->
  exists n1 n2 n3 r1 r2 r3, (k <= n1)%nat /\ (k <= n2)%nat /\ (k <= n3)%nat /\ gauss_rule n1 r1 /\ gauss_rule n2 r2 /\ gauss_rule n3 r3 /\
    forall h, gsum bx rx ry rz h = gq a1 b1 r1 (fun u => gq a2 b2 r2 (fun v => gq a3 b3 r3 (fun w => h (P u v w)))).
Theorem gcounts_graph : gcounts bx S (fun g => RInt (fun u => RInt (fun v => RInt (fun w => g (P u v w)) (lo2 u v) (hi2 u v)) (lo1 u) (hi1 u)) e f).
Proof.
  intros X F UF.
  destruct (rule_limit X a1 b1 a2 b2 a3 b3 e f lo1 hi1 lo2 hi2 s1 s2 s3 (fun x u v w => F (x, P u v w)) H1 H2 H3 Ha He Hf Hb1 Hb2 U1 U2 U3 U4 (slice3 P X F UP UF) S1 S1' S2 S2' S3 S3') as (_ & _ & _ & UI & LF).
  split; [exact UI|]. intros A eps Heps. destruct (LF A eps Heps) as (N & HN & Q). exists N. split; [exact HN|]. intros nx ny nz rx ry rz x s K1 K2 K3 G1 G2 G3 Hx Hs.
  destruct (Hlat N nx ny nz rx ry rz K1 K2 K3 G1 G2 G3) as (n1 & n2 & n3 & r1 & r2 & r3 & M1 & M2 & M3 & M4 & M5 & M6 & E). rewrite E.
  assert (E2 : gq a1 b1 r1 (fun u => gq a2 b2 r2 (fun v => gq a3 b3 r3 (fun w => chi (s (P u v w)) * F (x, P u v w)))) = rule_sum3 a1 b1 a2 b2 a3 b3 r1 r2 r3 s1 s2 s3 (fun u v w => F (x, P u v w))).
  { unfold rule_sum3. apply gq_eq. intros u. rewrite <- gq_scal. apply gq_eq. intros v. rewrite <- !gq_scal. apply gq_eq. intros w. rewrite <- !Rmult_assoc. f_equal.
    assert (Z : s (P u v w) = (s1 u && s2 u v && s3 u v w)%bool). { apply Bool.eq_iff_eq_true. rewrite Hs, HS, !Bool.andb_true_iff. tauto. } rewrite Z. destruct (s1 u), (s2 u v), (s3 u v w); cbn; ring. }
  rewrite E2. exact (Q n1 n2 n3 r1 r2 r3 x M1 M2 M3 M4 M5 M6 Hx).
Qed.
End Graph.
Lemma gcounts_ext bx (S S' : region) J J' : (forall v, S v <-> S' v) -> (forall g, UC V3 Rs g -> J g = J' g) -> gcounts bx S J -> gcounts bx S' J'.
Proof.
  intros HS HJ H X F UF. destruct (H X F UF) as (UI & L). assert (US : forall x, UC V3 Rs (fun v => F (x, v))) by (intros x; exact (UC_at X V3 F x UF)). split.
  - apply (UC_ext X Rs (fun x => J (fun v => F (x, v)))); [intros x; apply HJ, US|exact UI].
  - intros A eps He. destruct (L A eps He) as (N & HN & Q). exists N. split; [exact HN|]. intros nx ny nz rx ry rz x s K1 K2 K3 G1 G2 G3 Hx Hs. assert (EJ := HJ (fun v => F (x, v)) (US x)). assert (Q' := Q nx ny nz rx ry rz x s K1 K2 K3 G1 G2 G3 Hx (fun v => iff_trans (Hs v) (iff_sym (HS v)))). apply Rle_trans with (2 := Q'). right. do 2 f_equal. symmetry. exact EJ.
Qed.
Lemma gcounts_union bx (S1 S2 S : region) J1 J2 (dec : forall v, {S1 v} + {~ S1 v}) : (forall v, S v <-> S1 v \/ S2 v) -> (forall v, S1 v -> ~ S2 v) -> gcounts bx S1 J1 -> gcounts bx S2 J2 -> gcounts bx S (fun g => J1 g + J2 g).
Proof.
  intros HS HD C1 C2 X F UF. destruct (C1 X F UF) as (UI1 & L1). destruct (C2 X F UF) as (UI2 & L2). split; [now apply UC_add|].
  intros A eps He. destruct (L1 A (eps / 2) ltac:(lra)) as (N1 & HN1 & Q1). destruct (L2 A (eps / 2) ltac:(lra)) as (N2 & HN2 & Q2). exists (N1 + N2)%nat. split; [lia|]. intros nx ny nz rx ry rz x s K1 K2 K3 G1 G2 G3 Hx Hs.
  set (s1 := fun v => if dec v then true else false). set (s2 := fun v => (s v && negb (s1 v))%bool).
  assert (H1 : forall v, s1 v = true <-> S1 v) by (intros v; unfold s1; destruct (dec v); split; intros; (assumption || reflexivity || discriminate || contradiction)).
  assert (H2 : forall v, s2 v = true <-> S2 v). { intros v. unfold s2. rewrite Bool.andb_true_iff, Bool.negb_true_iff, Hs, HS. assert (B := H1 v). assert (D := HD v). split; [intros (Z & Z'); destruct Z as [Z|Z]; [apply B in Z; congruence|exact Z]|]. intros Z. split; [now right|]. destruct (s1 v) eqn:E; [|reflexivity]. exfalso. apply D; [now apply B|exact Z]. }
  assert (Z1 := Q1 nx ny nz rx ry rz x s1 ltac:(lia) ltac:(lia) ltac:(lia) G1 G2 G3 Hx H1). assert (Z2 := Q2 nx ny nz rx ry rz x s2 ltac:(lia) ltac:(lia) ltac:(lia) G1 G2 G3 Hx H2).
  rewrite (gsum_eq _ _ _ _ _ (fun v => chi (s1 v) * F (x, v) + chi (s2 v) * F (x, v))), gsum_plus.
  2:{ intros v. assert (Z : s v = (s1 v || s2 v)%bool /\ (s1 v && s2 v)%bool = false). { unfold s2. split; [|destruct (s v), (s1 v); reflexivity]. apply Bool.eq_iff_eq_true. rewrite Bool.orb_true_iff, Bool.andb_true_iff. destruct (s v) eqn:E; [destruct (s1 v); tauto|]. split; [discriminate|]. intros [Z|[Z _]]; [|discriminate]. apply H1 in Z. assert (S v) by (apply HS; tauto). apply Hs in H. congruence. }
      destruct Z as (-> & Z). destruct (s1 v), (s2 v); cbn in *; try discriminate; ring. }
  apply Rabs_le_between in Z1. apply Rabs_le_between in Z2. apply Rabs_le_between. lra.
Qed.
