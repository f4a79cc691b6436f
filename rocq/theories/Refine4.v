(* The arrays of newt/glibShapes.py tend to the homogeneous solids: solids bounded by graphs over the coordinate planes. *)
From Coq Require Import Reals Lra Lia List ZArith Classical.
From Coquelicot Require Import Coquelicot.
From Verif Require Import Glib LipInt BodyInt SolidSpec VInt NumSpec PointSpec ShapeSpec GlibShapes GlibShapesProofs Props_GlibShapes Props_GlibShapes2 QlmProofs QlmProofs3 NumExist Pg2MultiProofs Props_Shapes2 Qlm Props_Qlm Props_Num2 Refine2 Refine3.
From Verif Require Import Cplx.
From Verif Require Import Refine.
Import ListNotations.
Open Scope R_scope.

Definition inb (a b x : R) : bool := if Rle_dec a x then if Rle_dec x b then true else false else false.
Lemma inb_iff a b x : inb a b x = true <-> a <= x <= b.
Proof. unfold inb. destruct (Rle_dec a x), (Rle_dec x b); split; intros H; try reflexivity; try discriminate; try (split; assumption); lra. Qed.
(* a lattice sum of ones that is not zero has a term *)
Lemma rs_zero n F : (forall i, (i < n)%nat -> F i = 0) -> rs n F = 0.
Proof. induction n as [|n IH]; intros H; [reflexivity|]. cbn. rewrite H by lia. rewrite IH by (intros; apply H; lia). ring. Qed.
Lemma some_point a1 b1 a2 b2 a3 b3 n1 n2 n3 s1 s2 s3 : lattice_sum a1 b1 a2 b2 a3 b3 n1 n2 n3 s1 s2 s3 (fun _ _ _ => 1) <> 0 ->
  exists u v w, (centre a1 b1 n1 u /\ centre a2 b2 n2 v /\ centre a3 b3 n3 w) /\ (s1 u = true /\ s2 u v = true /\ s3 u v w = true).
Proof.
  intros H. apply NNPP. intros C. apply H. unfold lattice_sum. apply rs_zero. intros i Hi. destruct (s1 (mid a1 b1 n1 i)) eqn:E1; [|cbn; ring].
  rewrite rs_zero; [cbn; ring|]. intros j Hj. destruct (s2 (mid a1 b1 n1 i) (mid a2 b2 n2 j)) eqn:E2; [|cbn; ring].
  rewrite rs_zero; [cbn; ring|]. intros k Hk. destruct (s3 (mid a1 b1 n1 i) (mid a2 b2 n2 j) (mid a3 b3 n3 k)) eqn:E3; [|cbn; ring].
  exfalso. apply C. exists (mid a1 b1 n1 i), (mid a2 b2 n2 j), (mid a3 b3 n3 k). split; [|now repeat split]. split; [exists i|split; [exists j|exists k]]; now split.
Qed.

Section Solid.
Variables (P : R -> R -> R -> vec) (Q1 Q2 Q3 : vec -> R) (a1 b1 a2 b2 a3 b3 e f : R) (lo1 hi1 : R -> R) (lo2 hi2 : R -> R -> R).
Hypotheses (PQ : forall v, P (Q1 v) (Q2 v) (Q3 v) = v) (E1 : forall u v w, Q1 (P u v w) = u) (E2 : forall u v w, Q2 (P u v w) = v) (E3 : forall u v w, Q3 (P u v w) = w).
Hypothesis UP : LL V3 V3 (fun p => P (fst (fst p)) (snd (fst p)) (snd p)).
Hypotheses (H1 : a1 < b1) (H2 : a2 < b2) (H3 : a3 < b3) (Ha : a1 <= e) (He : e <= f) (Hf : f <= b1).
Hypothesis Hb1 : forall u, e <= u <= f -> a2 <= lo1 u /\ lo1 u <= hi1 u /\ hi1 u <= b2.
Hypothesis Hb2 : forall u v, e <= u <= f -> lo1 u <= v <= hi1 u -> a3 <= lo2 u v /\ lo2 u v <= hi2 u v /\ hi2 u v <= b3.
Hypotheses (U1 : UC Rs Rs lo1) (U2 : UC Rs Rs hi1) (U3 : UC P2 Rs (fun p => lo2 (fst p) (snd p))) (U4 : UC P2 Rs (fun p => hi2 (fst p) (snd p))).
Variables (B : body) (V mass r : R) (S : region) (bx : span).
Hypotheses (RB : regular B) (HB : forall f' I, is_int3 e f lo1 hi1 lo2 hi2 (fun u v w => let '(x, y, z) := P u v w in f' x y z) I -> B f' I).
Hypotheses (HV : V <> 0) (BV : B (fun _ _ _ => RtoC 1) (RtoC V)).
Hypothesis HS : forall u v w, S (P u v w) <-> e <= u <= f /\ lo1 u <= v <= hi1 u /\ lo2 u v <= w <= hi2 u v.
Hypothesis Hlat : forall k nx ny nz, (k <= nx)%nat -> (k <= ny)%nat -> (k <= nz)%nat -> (0 < nx)%nat -> (0 < ny)%nat -> (0 < nz)%nat ->
  exists n1 n2 n3, (k <= n1)%nat /\ (k <= n2)%nat /\ (k <= n3)%nat /\ (0 < n1)%nat /\ (0 < n2)%nat /\ (0 < n3)%nat /\
    forall u v w, on_lattice bx nx ny nz (P u v w) <-> centre a1 b1 n1 u /\ centre a2 b2 n2 v /\ centre a3 b3 n3 w.
Hypothesis Hr : forall v, S v -> vnorm v <= r.
Definition filling (fam : nat -> list pt -> Prop) : Prop := forall n pts, fam n pts -> exists nx ny nz, (n <= nx)%nat /\ (n <= ny)%nat /\ (n <= nz)%nat /\ (0 < nx)%nat /\ (0 < ny)%nat /\ (0 < nz)%nat /\ fills mass S bx nx ny nz pts.
Lemma S_true u v w : S (P u v w) <-> inb e f u = true /\ inb (lo1 u) (hi1 u) v = true /\ inb (lo2 u v) (hi2 u v) w = true.
Proof. rewrite HS, !inb_iff. reflexivity. Qed.
Theorem solid_tends fam : filling fam -> tends fam (of_mass mass B) r.
Proof.
  intros HF. apply (fill_tends P Q1 Q2 Q3 a1 b1 a2 b2 a3 b3 e f lo1 hi1 lo2 hi2 (inb e f) (fun u => inb (lo1 u) (hi1 u)) (fun u v => inb (lo2 u v) (hi2 u v))) with (V := V); try assumption; try (intros; now apply inb_iff).
  - intros u Hu. apply inb_iff. lra.
  - intros u v _ Hu. apply inb_iff. lra.
  - intros u v w _ _ Hu. apply inb_iff. lra.
  - intros n pts Hp. destruct (HF n pts Hp) as (nx & ny & nz & K1 & K2 & K3 & K4 & K5 & K6 & (F1 & F2 & F3 & _)). destruct (Hlat n nx ny nz K1 K2 K3 K4 K5 K6) as (n1 & n2 & n3 & L1 & L2 & L3 & L4 & L5 & L6 & L7).
    exists n1, n2, n3. do 6 (split; [assumption|]). split; [exact F2|]. split; [exact F3|]. intros u v w. rewrite F1, L7, S_true. reflexivity.
  - intros n pts p Hp Hin. destruct (HF n pts Hp) as (nx & ny & nz & _ & _ & _ & _ & _ & _ & (F1 & _)). apply Hr. apply (F1 (pp p)). now apply in_map.
Qed.
(* with counts large enough there is a lattice point in the solid *)
Theorem solid_points : exists N, forall nx ny nz, (N <= nx)%nat -> (N <= ny)%nat -> (N <= nz)%nat -> exists v, on_lattice bx nx ny nz v /\ S v.
Proof.
  destruct (lattice_limit Rs a1 b1 a2 b2 a3 b3 e f lo1 hi1 lo2 hi2 (inb e f) (fun u => inb (lo1 u) (hi1 u)) (fun u v => inb (lo2 u v) (hi2 u v)) (fun x u v w => 1) H1 H2 H3 Ha He Hf Hb1 Hb2 U1 U2 U3 U4 (UC_LL _ _ _ (LL_const (xf Rs) 1)))
    as (J1 & J2 & J3 & _ & L1); try (intros; now apply inb_iff).
  { intros u Hu. apply inb_iff. lra. } { intros u v _ Hu. apply inb_iff. lra. } { intros u v w _ _ Hu. apply inb_iff. lra. }
  set (W := fun x : R => RInt (fun u => RInt (fun v => RInt (fun _ => 1) (lo2 u v) (hi2 u v)) (lo1 u) (hi1 u)) e f) in J3, L1.
  assert (EW : W 0 = V).
  { assert (Q : B (fun _ _ _ => RtoC 1) (RtoC (W 0))). { apply HB. exists (fun u v => RtoC (RInt (fun _ => 1) (lo2 u v) (hi2 u v))), (fun u => RtoC (RInt (fun v => RInt (fun _ => 1) (lo2 u v) (hi2 u v)) (lo1 u) (hi1 u))). split; [|split].
      - intros u v. eapply is_CInt_ext; [intros t; destruct (P u v t) as [[x y] z]; reflexivity|]. apply (CInt_RtoC (fun _ => 1)). exact (J1 0 u v).
      - intros u. apply (CInt_RtoC (fun v => RInt (fun _ => 1) (lo2 u v) (hi2 u v))). exact (J2 0 u).
      - apply (CInt_RtoC (fun u => RInt (fun v => RInt (fun _ => 1) (lo2 u v) (hi2 u v)) (lo1 u) (hi1 u))). exact (J3 0). }
    assert (E := reg_unique _ RB _ _ _ Q BV). now injection E. }
  destruct (L1 1 (Rabs V / 2)) as (N & HN & Q). { assert (K := Rabs_pos_lt V HV). lra. }
  exists N. intros nx ny nz K1 K2 K3. destruct (Hlat N nx ny nz K1 K2 K3 ltac:(lia) ltac:(lia) ltac:(lia)) as (n1 & n2 & n3 & M1 & M2 & M3 & M4 & M5 & M6 & M7).
  assert (Z : Rabs (lattice_sum a1 b1 a2 b2 a3 b3 n1 n2 n3 (inb e f) (fun u => inb (lo1 u) (hi1 u)) (fun u v => inb (lo2 u v) (hi2 u v)) (fun _ _ _ => 1) - W 0) <= Rabs V / 2) by (apply (Q n1 n2 n3 0 M1 M2 M3); cbn; rewrite Rabs_R0; lra).
  rewrite EW in Z. destruct (some_point a1 b1 a2 b2 a3 b3 n1 n2 n3 (inb e f) (fun u => inb (lo1 u) (hi1 u)) (fun u v => inb (lo2 u v) (hi2 u v))) as (u & v & w & G1 & G2).
  { intros Z0. rewrite Z0 in Z. replace (0 - V) with (- V) in Z by ring. rewrite Rabs_Ropp in Z. assert (K := Rabs_pos_lt V HV). lra. }
  exists (P u v w). split; [now apply M7|now apply S_true].
Qed.
Theorem solid_both : (forall fam, filling fam -> tends fam (of_mass mass B) r) /\ exists N, forall nx ny nz, (N <= nx)%nat -> (N <= ny)%nat -> (N <= nz)%nat -> exists v, on_lattice bx nx ny nz v /\ S v.
Proof. split; [exact solid_tends|exact solid_points]. Qed.
End Solid.

(* the three coordinates in the orders x y z and z x y *)
Lemma LL_zxy : LL V3 V3 (fun p : vec => (snd (fst p), snd p, fst (fst p))). Proof. ll. Qed.
Lemma LL_zyx : LL V3 V3 (fun p : vec => (snd p, snd (fst p), fst (fst p))). Proof. ll. Qed.
Lemma sq_le a b : 0 <= b -> Rabs a <= b -> a ^ 2 <= b ^ 2. Proof. intros Hb H. rewrite <- (pow2_abs a). apply pow_incr. split; [apply Rabs_pos|exact H]. Qed.
Lemma vnorm_le x y z r : 0 <= r -> x ^ 2 + y ^ 2 + z ^ 2 <= r ^ 2 -> vnorm (x, y, z) <= r.
Proof. intros Hr H. rewrite vnorm_xyz. rewrite <- (sqrt_pow2 r) by exact Hr. now apply sqrt_le_1_alt. Qed.

Lemma box_V H a b : 0 < H -> 0 < a -> 0 < b -> exists V, V <> 0 /\ box H a b (fun _ _ _ => RtoC 1) (RtoC V).
Proof. intros HH Ha Hb. destruct (C36_rect_prism 0 1 H a b 0 ltac:(lia) HH Ha Hb) as (q & _ & _ & V & HV & BV & _). exists V. split; [exact HV|exact BV]. Qed.
Theorem box_tends mass x y z r fam : 0 < x -> 0 < y -> 0 < z -> 0 <= r -> (x / 2) ^ 2 + (y / 2) ^ 2 + (z / 2) ^ 2 <= r ^ 2 ->
  filling mass (brick (0, 0, 0) x y z) (brick_span (0, 0, 0) x y z) fam -> tends fam (of_mass mass (box z x y)) r.
Proof.
  intros Hx Hy Hz Hr Hn HF. destruct (box_V z x y Hz Hx Hy) as (V & HV & BV).
  refine (solid_tends (fun u v w => (u, v, w)) (fun v => fst (fst v)) (fun v => snd (fst v)) (fun v => snd v) (0 - x / 2) (0 + x / 2) (0 - y / 2) (0 + y / 2) (0 - z / 2) (0 + z / 2) (- x / 2) (x / 2)
    (fun _ => - y / 2) (fun _ => y / 2) (fun _ _ => - z / 2) (fun _ _ => z / 2) _ _ _ _ _ _ _ _ _ _ _ _ _ _ _ _ _ (box z x y) V mass r (brick (0, 0, 0) x y z) (brick_span (0, 0, 0) x y z) _ _ HV BV _ _ _ fam HF).
  1: intros [[? ?] ?]; reflexivity. 1-3: reflexivity. 1: exact (LL_id V3). 1-6: lra. 1-2: intros; repeat split; lra. 1-4: apply UC_LL; apply LL_const.
  - apply regular_box.
  - intros f I H. exact H.
  - intros u v w. unfold brick. rewrite !Rminus_0_r. rewrite !Rabs_iff. split; intros H; repeat split; lra.
  - intros k nx ny nz ? ? ? ? ? ?. exists nx, ny, nz. do 6 (split; [assumption|]). intros u v w. reflexivity.
  - intros [[a b] c] H. unfold brick in H. rewrite !Rminus_0_r in H. destruct H as (Q1 & Q2 & Q3). apply vnorm_le; [exact Hr|]. apply sq_le in Q1; [|lra]. apply sq_le in Q2; [|lra]. apply sq_le in Q3; [|lra]. lra.
Qed.
Lemma tri_V H d y1 y2 : 0 < H -> 0 < d -> y1 < y2 -> exists V, V <> 0 /\ triangular_prism H d y1 y2 (fun _ _ _ => RtoC 1) (RtoC V).
Proof. intros HH Hd Hy. destruct (C36_tri_prism 0 1 H d y1 y2 ltac:(lia) HH ltac:(lra) ltac:(lra)) as (q & _ & _ & V & HV & BV & _). now exists V. Qed.
Lemma frac_le a b d : 0 < d -> a <= b -> a / d <= b / d. Proof. intros Hd H. apply Rmult_le_compat_r; [left; now apply Rinv_0_lt_compat|exact H]. Qed.
Section TriPrism.
Variables (mass d y1 y2 t r : R).
Hypotheses (Hd : 0 < d) (Hy : 0 <= y1 < y2) (Ht : 0 < t) (Hr : 0 <= r) (Hn : d ^ 2 + y2 ^ 2 + (t / 2) ^ 2 <= r ^ 2).
Let S := triangle_region d y1 y2 t.
Let bx := prism_span d y2 t.
Lemma tri_facts x : 0 <= x <= d -> 0 <= y1 * x / d /\ y1 * x / d <= y2 * x / d /\ y2 * x / d <= y2.
Proof.
  intros Hx. split; [|split].
  - apply Rdiv_le_0_compat; [apply Rmult_le_pos; lra|exact Hd].
  - apply frac_le; [exact Hd|]. apply Rmult_le_compat_r; lra.
  - apply (Rmult_le_reg_r d); [exact Hd|]. replace (y2 * x / d * d) with (y2 * x) by (field; lra). apply Rmult_le_compat_l; lra.
Qed.
Theorem tri_tends : (forall fam, filling mass S bx fam -> tends fam (of_mass mass (triangular_prism t d y1 y2)) r) /\
  exists N, forall nx ny nz, (N <= nx)%nat -> (N <= ny)%nat -> (N <= nz)%nat -> exists v, on_lattice bx nx ny nz v /\ S v.
Proof.
  destruct (tri_V t d y1 y2 Ht Hd (proj2 Hy)) as (V & HV & BV).
  refine (solid_both (fun u v w => (u, v, w)) (fun v => fst (fst v)) (fun v => snd (fst v)) (fun v => snd v) 0 d 0 y2 (- (t / 2)) (t / 2) 0 d
    (fun x => y1 * x / d) (fun x => y2 * x / d) (fun _ _ => - t / 2) (fun _ _ => t / 2) _ _ _ _ _ _ _ _ _ _ _ _ _ _ _ _ _ (triangular_prism t d y1 y2) V mass r S bx _ _ HV BV _ _ _).
  1: intros [[? ?] ?]; reflexivity. 1-3: reflexivity. 1: exact (LL_id V3). 1-6: lra. 1: exact tri_facts. 1: intros; split; [|split]; lra. 1-2: apply UC_LL; ll. 1-2: apply UC_LL, LL_const.
  - apply regular_tri.
  - intros f I H. exact H.
  - intros u v w. unfold S, triangle_region. rewrite Rabs_iff, (Rmult_comm u y1), (Rmult_comm u y2). split; intros HH; repeat split; lra.
  - intros k nx ny nz ? ? ? ? ? ?. exists nx, ny, nz. do 6 (split; [assumption|]). intros u v w. reflexivity.
  - intros [[a b] c] (Q1 & Q2 & Q3). rewrite (Rmult_comm a y1), (Rmult_comm a y2) in Q2. assert (TF := tri_facts a Q1). apply vnorm_le; [exact Hr|]. apply sq_le in Q3; [|lra]. assert (a ^ 2 <= d ^ 2) by (apply pow_incr; lra). assert (b ^ 2 <= y2 ^ 2) by (apply pow_incr; lra). lra.
Qed.
End TriPrism.

Lemma apex_V x y1 y2 z : 0 < x -> y1 < y2 -> 0 < z -> exists V, V <> 0 /\ apex_tetrahedron x y1 y2 z (fun _ _ _ => RtoC 1) (RtoC V).
Proof. intros Hx Hy Hz. destruct (C36_tetrahedron2 0 1 x y1 y2 z ltac:(lia) Hx ltac:(lra) Hz) as (q & _ & _ & V & HV & BV & _). now exists V. Qed.
Lemma pyr_V x y z : 0 < x -> 0 < y -> 0 < z -> exists V, V <> 0 /\ rect_pyramid x y z (fun _ _ _ => RtoC 1) (RtoC V).
Proof. intros Hx Hy Hz. destruct (C36_pyramid 0 1 x y z ltac:(lia) Hx Hy Hz) as (q & _ & _ & V & HV & BV & _). now exists V. Qed.
Lemma shrink z w : 0 < z -> 0 <= w <= z -> 0 <= 1 - w / z <= 1.
Proof. intros Hz Hw. assert (0 <= w / z <= 1); [|lra]. split; [apply Rdiv_le_0_compat; lra|]. apply (Rmult_le_reg_r z); [exact Hz|]. replace (w / z * z) with w by (field; lra). lra. Qed.
Section Tetra.
Variables (mass x y1 y2 z r : R).
Hypotheses (Hx : 0 < x) (Hy : 0 <= y1 < y2) (Hz : 0 < z <= r) (Hn : x ^ 2 + y2 ^ 2 <= r ^ 2).
Let S := tetra_region x y1 y2 z.
Let bx := tetra_span x y2 z.
Theorem tetra_tends : (forall fam, filling mass S bx fam -> tends fam (of_mass mass (apex_tetrahedron x y1 y2 z)) r) /\
  exists N, forall nx ny nz, (N <= nx)%nat -> (N <= ny)%nat -> (N <= nz)%nat -> exists v, on_lattice bx nx ny nz v /\ S v.
Proof.
  destruct (apex_V x y1 y2 z Hx (proj2 Hy) (proj1 Hz)) as (V & HV & BV).
  assert (TF := tri_facts x y1 y2 Hx Hy).
  assert (KX : forall w, 0 <= w <= z -> 0 <= x * (1 - w / z) <= x). { intros w Hw. assert (T := shrink z w (proj1 Hz) Hw). split; [apply Rmult_le_pos; lra|]. rewrite <- (Rmult_1_r x) at 2. apply Rmult_le_compat_l; lra. }
  assert (IFF : forall u v w, S (v, w, u) <-> 0 <= u <= z /\ 0 <= v <= x * (1 - u / z) /\ y1 * v / x <= w <= y2 * v / x).
  { intros u v w. unfold S, tetra_region. rewrite (Rmult_comm v y1), (Rmult_comm v y2).
    assert (Q : forall u, 0 <= v -> (v <= x * (1 - u / z) <-> v / x + u / z <= 1)).
    { intros u' Hv. assert (E1 : v = x * (v / x)) by (field; lra). split; intros H.
      - rewrite E1 in H. apply Rmult_le_reg_l in H; lra.
      - rewrite E1. apply Rmult_le_compat_l; lra. }
    split.
    - intros (A & B & C & D). rewrite <- (Q u A) in D. assert (G : 0 <= x * (1 - u / z)) by lra. assert (G' : 0 <= 1 - u / z). { apply (Rmult_le_reg_l x); lra. }
      repeat split; try lra. apply Rmult_le_reg_r with (/ z); [apply Rinv_0_lt_compat; lra|]. rewrite Rinv_r by lra. unfold Rdiv in G'. lra.
    - intros (A & B & C). rewrite <- (Q u) by lra. repeat split; lra. }
  refine (solid_both (fun u v w => (v, w, u)) (fun v => snd v) (fun v => fst (fst v)) (fun v => snd (fst v)) 0 z 0 x 0 y2 0 z
    (fun _ => 0) (fun w => x * (1 - w / z)) (fun w u => y1 * u / x) (fun w u => y2 * u / x) _ _ _ _ _ _ _ _ _ _ _ _ _ _ _ _ _ (apex_tetrahedron x y1 y2 z) V mass r S bx _ _ HV BV _ _ _).
  1: intros [[? ?] ?]; reflexivity. 1-3: reflexivity. 1: exact LL_zxy. 1-6: lra.
  1: intros u Hu; specialize (KX u Hu); repeat split; lra. 1: intros u v Hu Hv; specialize (KX u Hu); apply TF; lra.
  1: apply UC_LL, LL_const. 1: apply UC_LL; ll. 1-2: apply UC_LL; unfold P2; ll.
  - apply regular_swap.
  - intros f I H. exact H.
  - exact IFF.
  - intros k nx ny nz ? ? ? ? ? ?. exists nz, nx, ny. do 6 (split; [assumption|]). intros u v w. cbn. tauto.
  - intros [[a b] c] Hs. apply IFF in Hs. destruct Hs as (Q1 & Q2 & Q3). assert (T := shrink z c (proj1 Hz) Q1). set (s := 1 - c / z) in *. assert (TF' := TF a). assert (a <= x) by (apply Rle_trans with (x * s); [lra|]; rewrite <- (Rmult_1_r x) at 2; apply Rmult_le_compat_l; lra).
    specialize (TF' ltac:(lra)). apply vnorm_le; [lra|].
    assert (Ec : c = z * (1 - s)) by (unfold s; field; lra).
    assert (Eb : b <= y2 * s). { apply Rle_trans with (y2 * a / x); [lra|]. apply (Rmult_le_reg_r x); [exact Hx|]. replace (y2 * a / x * x) with (y2 * a) by (field; lra). replace (y2 * s * x) with (y2 * (x * s)) by ring. apply Rmult_le_compat_l; lra. }
    assert (a ^ 2 <= (x * s) ^ 2) by (apply pow_incr; lra). assert (b ^ 2 <= (y2 * s) ^ 2) by (apply pow_incr; lra). assert (c ^ 2 <= (r * (1 - s)) ^ 2). { rewrite Ec. apply pow_incr. split; [apply Rmult_le_pos; lra|apply Rmult_le_compat_r; lra]. }
    assert (s ^ 2 * (x ^ 2 + y2 ^ 2) <= s ^ 2 * r ^ 2) by (apply Rmult_le_compat_l; [apply pow2_ge_0|exact Hn]). assert (0 <= s * (1 - s) * r ^ 2) by (apply Rmult_le_pos; [apply Rmult_le_pos; lra|apply pow2_ge_0]). nra.
Qed.
End Tetra.
Section Pyramid.
Variables (mass x y z r : R).
Hypotheses (Hx : 0 < x) (Hy : 0 < y) (Hz : 0 < z <= r) (Hn : x ^ 2 + y ^ 2 <= r ^ 2).
Let S := pyramid_region x y z.
Let bx := pyramid_span x y z.
Theorem pyramid_tends : (forall fam, filling mass S bx fam -> tends fam (of_mass mass (rect_pyramid x y z)) r) /\
  exists N, forall nx ny nz, (N <= nx)%nat -> (N <= ny)%nat -> (N <= nz)%nat -> exists v, on_lattice bx nx ny nz v /\ S v.
Proof.
  destruct (pyr_V x y z Hx Hy (proj1 Hz)) as (V & HV & BV).
  assert (KX : forall a w, 0 < a -> 0 <= w <= z -> 0 <= a * (1 - w / z) <= a). { intros a w Ha Hw. assert (T := shrink z w (proj1 Hz) Hw). split; [apply Rmult_le_pos; lra|]. rewrite <- (Rmult_1_r a) at 2. apply Rmult_le_compat_l; lra. }
  assert (IFF : forall u v w, S (v, w, u) <-> 0 <= u <= z /\ - x * (1 - u / z) <= v <= x * (1 - u / z) /\ - y * (1 - u / z) <= w <= y * (1 - u / z)).
  { intros u v w. unfold S, pyramid_region. rewrite !Rabs_iff, !Ropp_mult_distr_l_reverse. split; intros H; repeat split; lra. }
  refine (solid_both (fun u v w => (v, w, u)) (fun v => snd v) (fun v => fst (fst v)) (fun v => snd (fst v)) 0 z (- x) x (- y) y 0 z
    (fun w => - x * (1 - w / z)) (fun w => x * (1 - w / z)) (fun w u => - y * (1 - w / z)) (fun w u => y * (1 - w / z)) _ _ _ _ _ _ _ _ _ _ _ _ _ _ _ _ _ (rect_pyramid x y z) V mass r S bx _ _ HV BV _ _ _).
  1: intros [[? ?] ?]; reflexivity. 1-3: reflexivity. 1: exact LL_zxy. 1-6: lra.
  1: intros u Hu; specialize (KX x u Hx Hu); rewrite !Ropp_mult_distr_l_reverse; repeat split; lra. 1: intros u v Hu Hv; specialize (KX y u Hy Hu); rewrite !Ropp_mult_distr_l_reverse; repeat split; lra.
  1-2: apply UC_LL; ll. 1-2: apply UC_LL; unfold P2; ll.
  - apply regular_swap.
  - intros f I H. exact H.
  - exact IFF.
  - intros k nx ny nz ? ? ? ? ? ?. exists nz, nx, ny. do 6 (split; [assumption|]). intros u v w. cbn. tauto.
  - intros [[a b] c] Hs. apply IFF in Hs. destruct Hs as (Q1 & Q2 & Q3). assert (T := shrink z c (proj1 Hz) Q1). set (s := 1 - c / z) in *. apply vnorm_le; [lra|].
    assert (Ec : c = z * (1 - s)) by (unfold s; field; lra).
    assert (a ^ 2 <= (x * s) ^ 2) by (apply sq_le; [apply Rmult_le_pos; lra|apply Rabs_iff; lra]). assert (b ^ 2 <= (y * s) ^ 2) by (apply sq_le; [apply Rmult_le_pos; lra|apply Rabs_iff; lra]). assert (c ^ 2 <= (r * (1 - s)) ^ 2). { rewrite Ec. apply pow_incr. split; [apply Rmult_le_pos; lra|apply Rmult_le_compat_r; lra]. }
    assert (s ^ 2 * (x ^ 2 + y ^ 2) <= s ^ 2 * r ^ 2) by (apply Rmult_le_compat_l; [apply pow2_ge_0|exact Hn]). assert (0 <= s * (1 - s) * r ^ 2) by (apply Rmult_le_pos; [apply Rmult_le_pos; lra|apply pow2_ge_0]). nra.
Qed.
End Pyramid.
