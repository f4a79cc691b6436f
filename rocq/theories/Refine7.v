(* Lattice points of a region counted against an integral over it: regions bounded by graphs, disjoint unions of them,
   and the arrays of newt/glibShapes.py that fill them. *)
From Coq Require Import Reals Lra Lia List.
From Coquelicot Require Import Coquelicot.
From Verif Require Import Glib LipInt BodyInt SolidSpec VInt PointSpec NewtonSpec Newton ShapeSpec GlibShapesProofs Refine2 Refine3 Refine4 Refine5 Polar.
From Verif Require Import Cplx.
From Verif Require Import Refine.
Import ListNotations.
Open Scope R_scope.

Definition cellv (bx : span) (nx ny nz : nat) : R := cw (s_x0 bx) (s_x1 bx) nx * cw (s_y0 bx) (s_y1 bx) ny * cw (s_z0 bx) (s_z1 bx) nz.
Definition counts (bx : span) (S : region) (J : (vec -> R) -> R) : Prop := forall (X : pspace) (F : X * vec -> R), UC (pprod X V3) Rs F ->
  UC X Rs (fun x => J (fun v => F (x, v))) /\
  forall A eps, 0 < eps -> exists N, forall nx ny nz x l, (N <= nx)%nat -> (N <= ny)%nat -> (N <= nz)%nat -> (0 < nx)%nat -> (0 < ny)%nat -> (0 < nz)%nat -> sn X x <= A -> NoDup l ->
    (forall v, In v l <-> on_lattice bx nx ny nz v /\ S v) -> Rabs (cellv bx nx ny nz * lsr (fun v => F (x, v)) l - J (fun v => F (x, v))) <= eps.

Lemma UC_at (X Y : pspace) (F : X * Y -> R) x : UC (pprod X Y) Rs F -> UC Y Rs (fun v => F (x, v)).
Proof.
  intros H A. destruct (H (sn X x + A)) as ((M & HM & B) & L). split.
  - exists M. split; [exact HM|]. intros v Hv. apply (B (x, v)). cbn. lra.
  - intros eps He. destruct (L eps He) as (d & Hd & Q). exists d. split; [exact Hd|]. intros v w Hv Hw D. apply (Q (x, v) (x, w)); cbn; try lra. rewrite (sd_refl X x). lra.
Qed.
Lemma slice3 P (X : pspace) (F : X * vec -> R) : LL V3 V3 (fun p => P (fst (fst p)) (snd (fst p)) (snd p)) -> UC (pprod X V3) Rs F -> UC (xf X) Rs (fun p : ((X * R) * R) * R => F (fst (fst (fst p)), P (snd (fst (fst p))) (snd (fst p)) (snd p))).
Proof.
  intros UP H. apply (UC_comp (xf X) (pprod X V3) Rs (fun p : ((X * R) * R) * R => (fst (fst (fst p)), P (snd (fst (fst p))) (snd (fst p)) (snd p))) F); [|exact H].
  apply UC_LL, (LL_pair (xf X) X V3 (fun p : ((X * R) * R) * R => fst (fst (fst p))) (fun p => P (snd (fst (fst p))) (snd (fst p)) (snd p))); [exact (LL_proj0 X)|].
  exact (LL_comp (xf X) V3 V3 (fun p : ((X * R) * R) * R => (snd (fst (fst p)), snd (fst p), snd p)) _ (LL_proj3 X) UP).
Qed.
Section Graph.
Variables (P : R -> R -> R -> vec) (Q1 Q2 Q3 : vec -> R) (a1 b1 a2 b2 a3 b3 e f : R) (lo1 hi1 : R -> R) (lo2 hi2 : R -> R -> R) (s1 : R -> bool) (s2 : R -> R -> bool) (s3 : R -> R -> R -> bool).
Hypotheses (PQ : forall v, P (Q1 v) (Q2 v) (Q3 v) = v) (E1 : forall u v w, Q1 (P u v w) = u) (E2 : forall u v w, Q2 (P u v w) = v) (E3 : forall u v w, Q3 (P u v w) = w).
Hypothesis UP : LL V3 V3 (fun p => P (fst (fst p)) (snd (fst p)) (snd p)).
Hypotheses (H1 : a1 < b1) (H2 : a2 < b2) (H3 : a3 < b3) (Ha : a1 <= e) (He : e <= f) (Hf : f <= b1).
Hypothesis Hb1 : forall u, e <= u <= f -> a2 <= lo1 u /\ lo1 u <= hi1 u /\ hi1 u <= b2.
Hypothesis Hb2 : forall u v, e <= u <= f -> lo1 u <= v <= hi1 u -> a3 <= lo2 u v /\ lo2 u v <= hi2 u v /\ hi2 u v <= b3.
Hypotheses (U1 : UC Rs Rs lo1) (U2 : UC Rs Rs hi1) (U3 : UC P2 Rs (fun p => lo2 (fst p) (snd p))) (U4 : UC P2 Rs (fun p => hi2 (fst p) (snd p))).
Hypotheses (S1 : forall u, s1 u = true -> e <= u <= f) (S1' : forall u, e < u < f -> s1 u = true).
Hypotheses (S2 : forall u v, e <= u <= f -> s2 u v = true -> lo1 u <= v <= hi1 u) (S2' : forall u v, e <= u <= f -> lo1 u < v < hi1 u -> s2 u v = true).
Hypotheses (S3 : forall u v w, e <= u <= f -> lo1 u <= v <= hi1 u -> s3 u v w = true -> lo2 u v <= w <= hi2 u v) (S3' : forall u v w, e <= u <= f -> lo1 u <= v <= hi1 u -> lo2 u v < w < hi2 u v -> s3 u v w = true).
Variables (S : region) (bx : span).
Hypothesis HS : forall u v w, S (P u v w) <-> s1 u = true /\ s2 u v = true /\ s3 u v w = true.
Hypothesis Hlat : forall k nx ny nz, (k <= nx)%nat -> (k <= ny)%nat -> (k <= nz)%nat -> (0 < nx)%nat -> (0 < ny)%nat -> (0 < nz)%nat ->
  exists n1 n2 n3, (k <= n1)%nat /\ (k <= n2)%nat /\ (k <= n3)%nat /\ (0 < n1)%nat /\ (0 < n2)%nat /\ (0 < n3)%nat /\ cellv bx nx ny nz = cw a1 b1 n1 * cw a2 b2 n2 * cw a3 b3 n3 /\
    forall u v w, on_lattice bx nx ny nz (P u v w) <-> centre a1 b1 n1 u /\ centre a2 b2 n2 v /\ centre a3 b3 n3 w.
Theorem counts_graph : counts bx S (fun g => RInt (fun u => RInt (fun v => RInt (fun w => g (P u v w)) (lo2 u v) (hi2 u v)) (lo1 u) (hi1 u)) e f).
Proof.
  intros X F UF.
  destruct (lattice_limit X a1 b1 a2 b2 a3 b3 e f lo1 hi1 lo2 hi2 s1 s2 s3 (fun x u v w => F (x, P u v w)) H1 H2 H3 Ha He Hf Hb1 Hb2 U1 U2 U3 U4 (slice3 P X F UP UF) S1 S1' S2 S2' S3 S3') as (_ & _ & _ & UI & LF).
  split; [exact UI|]. intros A eps Heps. destruct (LF A eps Heps) as (N & _ & Q). exists N. intros nx ny nz x l K1 K2 K3 K4 K5 K6 Hx ND HI.
  destruct (Hlat N nx ny nz K1 K2 K3 K4 K5 K6) as (n1 & n2 & n3 & M1 & M2 & M3 & M4 & M5 & M6 & EC & M7). rewrite EC.
  rewrite (fill_sum P Q1 Q2 Q3 a1 b1 a2 b2 a3 b3 n1 n2 n3 PQ E1 E2 E3 H1 H2 H3 M4 M5 M6 s1 s2 s3 l (fun v => F (x, v)) ND).
  - exact (Q n1 n2 n3 x M1 M2 M3 Hx).
  - intros u v w. rewrite HI, M7, HS. reflexivity.
Qed.
End Graph.

Lemma counts_ext bx (S S' : region) J J' : (forall v, S v <-> S' v) -> (forall g, UC V3 Rs g -> J g = J' g) -> counts bx S J -> counts bx S' J'.
Proof.
  intros HS HJ HC X F UF. assert (E : forall x, J (fun v => F (x, v)) = J' (fun v => F (x, v))).
  { intros x. apply HJ. exact (UC_at X V3 F x UF). }
  destruct (HC X F UF) as (U & L). split; [exact (UC_ext X Rs _ _ E U)|]. intros A eps He. destruct (L A eps He) as (N & Q). exists N. intros nx ny nz x l K1 K2 K3 K4 K5 K6 Hx ND HI. rewrite <- E. apply Q; try assumption. intros v. rewrite HI, HS. reflexivity.
Qed.
Lemma lsr_split {A} (f : A -> R) (b : A -> bool) l : lsr f l = lsr f (filter b l) + lsr f (filter (fun a => negb (b a)) l).
Proof. unfold lsr. induction l as [|a l IH]; cbn; [ring|]. destruct (b a); cbn; rewrite IH; ring. Qed.
Lemma counts_union bx (S1 S2 S : region) J1 J2 (dec : forall v, {S1 v} + {~ S1 v}) : (forall v, S v <-> S1 v \/ S2 v) -> (forall v, S1 v -> ~ S2 v) -> counts bx S1 J1 -> counts bx S2 J2 -> counts bx S (fun g => J1 g + J2 g).
Proof.
  intros HS DJ C1 C2 X F UF. destruct (C1 X F UF) as (U1 & L1). destruct (C2 X F UF) as (U2 & L2). split; [now apply UC_add|]. intros A eps He.
  destruct (L1 A (eps / 2) ltac:(lra)) as (N1 & Q1). destruct (L2 A (eps / 2) ltac:(lra)) as (N2 & Q2). exists (N1 + N2)%nat. intros nx ny nz x l K1 K2 K3 K4 K5 K6 Hx ND HI.
  set (b := fun v => if dec v then true else false). assert (HB : forall v, b v = true <-> S1 v) by (intros v; unfold b; destruct (dec v); split; intros; try assumption; try reflexivity; try discriminate; contradiction).
  specialize (Q1 nx ny nz x (filter b l) ltac:(lia) ltac:(lia) ltac:(lia) K4 K5 K6 Hx (nodup_filter _ _ ND)). specialize (Q2 nx ny nz x (filter (fun v => negb (b v)) l) ltac:(lia) ltac:(lia) ltac:(lia) K4 K5 K6 Hx (nodup_filter _ _ ND)).
  assert (R1 := Q1 ltac:(intros v; rewrite filter_In, HI, HB, HS; tauto)).
  assert (R2 : Rabs (cellv bx nx ny nz * lsr (fun v => F (x, v)) (filter (fun v => negb (b v)) l) - J2 (fun v => F (x, v))) <= eps / 2).
  { apply Q2. intros v. rewrite filter_In, HI, HS, Bool.negb_true_iff. assert (B := HB v). assert (D := DJ v). destruct (b v); [|intuition congruence]. assert (S1 v) by (now apply B). intuition discriminate. }
  rewrite (lsr_split (fun v => F (x, v)) b l). replace (_ - _) with ((cellv bx nx ny nz * lsr (fun v => F (x, v)) (filter b l) - J1 (fun v => F (x, v))) + (cellv bx nx ny nz * lsr (fun v => F (x, v)) (filter (fun v => negb (b v)) l) - J2 (fun v => F (x, v)))) by ring.
  eapply Rle_trans; [apply Rabs_triang|lra].
Qed.

(* arrays that fill a region with counted points *)
Section Filled.
Variables (bx : span) (S : region) (J : (vec -> R) -> R) (B : body) (mass r : R).
Hypotheses (HC : counts bx S J) (HJ : forall g, UC V3 Rs g -> B (fun a b c => RtoC (g (a, b, c))) (RtoC (J g))) (PV : 0 < J (fun _ => 1)) (Hr : forall v, S v -> vnorm v <= r).
Hypotheses (X1 : s_x0 bx < s_x1 bx) (X2 : s_y0 bx < s_y1 bx) (X3 : s_z0 bx < s_z1 bx).
Lemma cellv_pos nx ny nz : (0 < nx)%nat -> (0 < ny)%nat -> (0 < nz)%nat -> 0 < cellv bx nx ny nz.
Proof. intros. unfold cellv. apply Rmult_lt_0_compat; [apply Rmult_lt_0_compat|]; now apply cw_pos. Qed.
Theorem counted_points : exists N, forall nx ny nz, (N <= nx)%nat -> (N <= ny)%nat -> (N <= nz)%nat -> (0 < nx)%nat -> (0 < ny)%nat -> (0 < nz)%nat -> ~ (forall v, on_lattice bx nx ny nz v -> ~ S v).
Proof.
  destruct (HC Rs (fun _ => 1) (UC_cst (pprod Rs V3) 1)) as (_ & L). destruct (L 1 (J (fun _ => 1) / 2) ltac:(lra)) as (N & Q). exists N. intros nx ny nz K1 K2 K3 K4 K5 K6 HN.
  specialize (Q nx ny nz 0 [] K1 K2 K3 K4 K5 K6 ltac:(cbn; rewrite Rabs_R0; lra) ltac:(constructor)). assert (Z : Rabs (cellv bx nx ny nz * lsr (fun _ : vec => 1) [] - J (fun _ => 1)) <= J (fun _ => 1) / 2).
  { apply Q. intros v. split; [intros []|]. intros (V1 & V2). destruct (HN v V1 V2). }
  unfold lsr in Z. cbn in Z. rewrite Rmult_0_r, Rminus_0_l, Rabs_Ropp, Rabs_pos_eq in Z by lra. lra.
Qed.
Theorem counted_tends fam : filling mass S bx fam -> tends fam (of_mass mass B) r.
Proof.
  intros HF. split; [|split].
  { exists (Rabs mass). split; [apply Rabs_pos|]. intros n pts Hp. destruct (HF n pts Hp) as (_ & _ & _ & _ & _ & _ & _ & _ & _ & (_ & _ & Hm & _)).
    rewrite (Newton.lsr_ext _ (fun _ => Rabs (mass / INR (length pts)) * 1)) by (intros p Hq; rewrite Hm by exact Hq; ring). rewrite Newton.lsr_scal.
    replace (lsr (fun _ : pt => 1) pts) with (INR (length pts)) by (clear; unfold lsr; induction pts as [|p l IH]; [reflexivity|]; cbn [length fold_right]; rewrite S_INR, IH; ring).
    destruct (length pts) as [|k]; [cbn; rewrite Rmult_0_r; apply Rabs_pos|]. assert (K : 0 < INR (Datatypes.S k)) by (apply lt_0_INR; lia).
    unfold Rdiv. rewrite Rabs_mult, (Rabs_pos_eq (/ _)) by (left; now apply Rinv_0_lt_compat). right. field. lra. }
  { intros n pts p Hp Hin. destruct (HF n pts Hp) as (nx & ny & nz & _ & _ & _ & _ & _ & _ & (F1 & _)). apply Hr. apply (F1 (pp p)). now apply in_map. }
  intros X F UF. destruct (HC X F UF) as (UI & LF). destruct (HC Rs (fun _ => 1) (UC_cst (pprod Rs V3) 1)) as (_ & L1). set (V := J (fun _ => 1)) in *.
  assert (US : forall x, UC V3 Rs (fun v => F (x, v))). { intros x. exact (UC_at X V3 F x UF). }
  exists (fun x => mass / V * J (fun v => F (x, v))). split; [now apply UC_scal|]. split.
  { intros x. exists V, (RtoC (J (fun v => F (x, v)))). split; [lra|]. split; [exact (HJ (fun _ => 1) (UC_cst V3 1))|]. split; [exact (HJ _ (US x))|]. now rewrite <- RtoC_mult. }
  intros A eps Heps. destruct (UI A) as ((MI & HMI & BI) & _). change (forall x, sn X x <= A -> Rabs (J (fun v => F (x, v))) <= MI) in BI.
  set (d := Rmin (V / 2) (eps * V ^ 2 / (2 * (Rabs mass + 1) * (V + MI)))).
  assert (PM := Rabs_pos mass). assert (V2 : 0 < V ^ 2) by (now apply pow_lt).
  assert (Hd : 0 < d). { apply Rmin_pos; [lra|]. apply Rdiv_lt_0_compat; [apply Rmult_lt_0_compat; lra|]. repeat apply Rmult_lt_0_compat; lra. }
  destruct (LF A d Hd) as (N1 & Q4). destruct (L1 1 d Hd) as (N2 & Q5). exists (N1 + N2)%nat. intros n pts x Hn Hp Hx.
  destruct (HF n pts Hp) as (nx & ny & nz & M1 & M2 & M3 & K1 & K2 & K3 & (F1 & ND & Hm & _)).
  assert (EM : lsr (fun p => pm p * F (x, pp p)) pts = mass / INR (length pts) * lsr (fun v => F (x, v)) (map pp pts)) by (rewrite lsr_map, <- Newton.lsr_scal; apply Newton.lsr_ext; intros p Hq; now rewrite Hm).
  rewrite EM. assert (Z1 := Q4 nx ny nz x (map pp pts) ltac:(lia) ltac:(lia) ltac:(lia) K1 K2 K3 Hx ND F1).
  assert (Z2 := Q5 nx ny nz 0 (map pp pts) ltac:(lia) ltac:(lia) ltac:(lia) K1 K2 K3 ltac:(cbn; rewrite Rabs_R0; lra) ND F1). cbv beta in Z2. fold V in Z2.
  replace (lsr (fun _ : vec => 1) (map pp pts)) with (INR (length pts)) in Z2. 2:{ clear. unfold lsr. induction pts as [|p l IH]; [reflexivity|]. cbn [length map fold_right]. rewrite S_INR, IH. ring. }
  assert (C3 := cellv_pos nx ny nz K1 K2 K3). set (c3 := cellv bx nx ny nz) in *.
  assert (R := ratio_err mass _ _ _ V MI d PV Z1 Z2 (BI x Hx) (Rmin_l _ _) HMI).
  assert (L0 : 0 < INR (length pts)). { apply Rabs_le_between in Z2. assert (D' := Rmin_l (V / 2) (eps * V ^ 2 / (2 * (Rabs mass + 1) * (V + MI)))). fold d in D'. apply (Rmult_lt_reg_l c3); [exact C3|]. lra. }
  replace (mass * (c3 * lsr (fun v => F (x, v)) (map pp pts) / (c3 * INR (length pts)))) with (mass / INR (length pts) * lsr (fun v => F (x, v)) (map pp pts)) in R by (field; lra).
  eapply Rle_trans; [exact R|]. assert (D2 := Rmin_r (V / 2) (eps * V ^ 2 / (2 * (Rabs mass + 1) * (V + MI)))). fold d in D2.
  apply Rle_trans with ((Rabs mass + 1) * (2 * (eps * V ^ 2 / (2 * (Rabs mass + 1) * (V + MI))) * (V + MI) / V ^ 2)); [|right; field; lra].
  apply Rmult_le_compat; [exact PM| |lra|].
  + apply Rmult_le_pos; [|left; now apply Rinv_0_lt_compat]. apply Rmult_le_pos; lra.
  + apply Rmult_le_compat_r; [left; now apply Rinv_0_lt_compat|]. apply Rmult_le_compat_r; lra.
Qed.
End Filled.
