(* Point masses that fill a solid (PointSpec.fills) and the integrals over it: sums over the array as lattice sums,
   and their limit when the lattice is refined. *)
From Coq Require Import Reals Lra Lia List Permutation.
From Coquelicot Require Import Coquelicot.
From Verif Require Import Glib LipInt BodyInt SolidSpec VInt PointSpec NewtonSpec Newton Refine ShapeSpec.
From Verif Require Import Cplx.
From Verif Require Import Refine.
Import ListNotations.
Open Scope R_scope.

Lemma lsr_app {A} (f : A -> R) l l' : lsr f (l ++ l') = lsr f l + lsr f l'.
Proof. unfold lsr. induction l; cbn; [ring|]. rewrite IHl. ring. Qed.
Lemma lsr_perm {A} (f : A -> R) l l' : Permutation l l' -> lsr f l = lsr f l'.
Proof. unfold lsr. induction 1; cbn; lra. Qed.
Lemma lsr_seq F n : lsr F (seq 0 n) = rs n F.
Proof. induction n as [|n IH]; [reflexivity|]. rewrite seq_S, lsr_app, IH. cbn. ring. Qed.
Lemma lsr_prod {A B} (F : A * B -> R) l l' : lsr F (list_prod l l') = lsr (fun a => lsr (fun b => F (a, b)) l') l.
Proof. induction l as [|a l IH]; [reflexivity|]. cbn [list_prod]. rewrite lsr_app, lsr_map, IH. reflexivity. Qed.
Lemma lsr_filter {A} (F : A -> R) s l : lsr F (filter s l) = lsr (fun a => chi (s a) * F a) l.
Proof. unfold lsr. induction l as [|a l IH]; [reflexivity|]. cbn. destruct (s a); cbn; rewrite IH; ring. Qed.
Lemma nodup_prod {A B} (l : list A) (l' : list B) : NoDup l -> NoDup l' -> NoDup (list_prod l l').
Proof.
  intros H H'. induction H as [|a l Hn H IH]; [constructor|]. cbn [list_prod].
  assert (D : forall (m : list (A * B)), NoDup m -> (forall b, ~ In (a, b) m) -> forall k, NoDup k -> NoDup (map (fun y => (a, y)) k ++ m)).
  { intros m Hm Ha. induction 1 as [|b k Hb Hk IHk]; [exact Hm|]. cbn. constructor; [|exact IHk]. intros C. apply in_app_or in C. destruct C as [C|C]; [|now apply (Ha b)].
    apply in_map_iff in C. destruct C as (y & E & C). injection E as <-. now apply Hb. }
  apply D; [exact IH| |exact H']. intros b C. apply in_prod_iff in C. now apply Hn.
Qed.
Lemma nodup_filter {A} (s : A -> bool) l : NoDup l -> NoDup (filter s l).
Proof. induction 1 as [|a l Hn H IH]; cbn; [constructor|]. destruct (s a); [|exact IH]. constructor; [|exact IH]. intros C. apply filter_In in C. now apply Hn. Qed.
Lemma nodup_map_in {A B} (g : A -> B) l : (forall x y, In x l -> In y l -> g x = g y -> x = y) -> NoDup l -> NoDup (map g l).
Proof.
  intros Hi H. induction H as [|a l Hn H IH]; cbn; [constructor|]. constructor.
  - intros C. apply in_map_iff in C. destruct C as (y & E & Hy). apply Hn. rewrite (Hi a y); [exact Hy|now left|now right|now symmetry].
  - apply IH. intros x y Hx Hy. apply Hi; now right.
Qed.

Section Fill.
Variables (P : R -> R -> R -> vec) (Q1 Q2 Q3 : vec -> R) (a1 b1 a2 b2 a3 b3 : R) (n1 n2 n3 : nat).
Hypotheses (PQ : forall v, P (Q1 v) (Q2 v) (Q3 v) = v) (E1 : forall u v w, Q1 (P u v w) = u) (E2 : forall u v w, Q2 (P u v w) = v) (E3 : forall u v w, Q3 (P u v w) = w).
Hypotheses (H1 : a1 < b1) (H2 : a2 < b2) (H3 : a3 < b3) (N1 : (0 < n1)%nat) (N2 : (0 < n2)%nat) (N3 : (0 < n3)%nat).
Variables (s1 : R -> bool) (s2 : R -> R -> bool) (s3 : R -> R -> R -> bool).
Let pos (t : (nat * nat) * nat) : vec := P (mid a1 b1 n1 (fst (fst t))) (mid a2 b2 n2 (snd (fst t))) (mid a3 b3 n3 (snd t)).
Let sel (t : (nat * nat) * nat) : bool := s1 (mid a1 b1 n1 (fst (fst t))) && s2 (mid a1 b1 n1 (fst (fst t))) (mid a2 b2 n2 (snd (fst t))) && s3 (mid a1 b1 n1 (fst (fst t))) (mid a2 b2 n2 (snd (fst t))) (mid a3 b3 n3 (snd t)).
Lemma mid_inj a b n i j : a < b -> (0 < n)%nat -> mid a b n i = mid a b n j -> i = j.
Proof. intros Hab Hn H. assert (C := cw_pos a b n Hab Hn). unfold mid in H. apply INR_eq. nra. Qed.
Lemma fill_sum (l : list vec) (F : vec -> R) : NoDup l ->
  (forall u v w, In (P u v w) l <-> (centre a1 b1 n1 u /\ centre a2 b2 n2 v /\ centre a3 b3 n3 w) /\ (s1 u = true /\ s2 u v = true /\ s3 u v w = true)) ->
  cw a1 b1 n1 * cw a2 b2 n2 * cw a3 b3 n3 * lsr F l = lattice_sum a1 b1 a2 b2 a3 b3 n1 n2 n3 s1 s2 s3 (fun u v w => F (P u v w)).
Proof.
  intros HN HI. set (L := map pos (filter sel (list_prod (list_prod (seq 0 n1) (seq 0 n2)) (seq 0 n3)))).
  assert (PL : Permutation l L).
  { apply NoDup_Permutation; [exact HN| |].
    - unfold L. apply nodup_map_in.
      + intros [[i j] k] [[i' j'] k'] _ _ E. unfold pos in E. cbn in E. assert (G1 := f_equal Q1 E). assert (G2 := f_equal Q2 E). assert (G3 := f_equal Q3 E). rewrite ?E1, ?E2, ?E3 in *.
        apply mid_inj in G1, G2, G3; try assumption. congruence.
      + apply nodup_filter. repeat apply nodup_prod; apply seq_NoDup.
    - intros v. rewrite <- (PQ v). rewrite HI. unfold L. rewrite in_map_iff. split.
      + intros (((i & Hi & Ei) & (j & Hj & Ej) & (k & Hk & Ek)) & S1 & S2 & S3). exists ((i, j), k). split.
        * unfold pos. cbn. now rewrite Ei, Ej, Ek.
        * apply filter_In. split; [rewrite !in_prod_iff, !in_seq; lia|]. unfold sel. cbn. unfold mid, cw. rewrite <- Ei, <- Ej, <- Ek, S1, S2, S3. reflexivity.
      + intros ([[i j] k] & E & Hin). apply filter_In in Hin. destruct Hin as [Hp Hs]. rewrite !in_prod_iff, !in_seq in Hp. unfold pos in E. cbn in E.
        assert (G1 := f_equal Q1 E). assert (G2 := f_equal Q2 E). assert (G3 := f_equal Q3 E). rewrite ?E1, ?E2, ?E3 in *. unfold sel in Hs. cbn in Hs. rewrite G1, G2, G3 in Hs. apply Bool.andb_true_iff in Hs. destruct Hs as [Hs Hs3]. apply Bool.andb_true_iff in Hs. destruct Hs as [Hs1 Hs2].
        split; [|split; [exact Hs1|split; [exact Hs2|exact Hs3]]]. split; [exists i|split; [exists j|exists k]]; split; try lia; symmetry; assumption. }
  rewrite (lsr_perm F l L PL). unfold L. rewrite lsr_map, lsr_filter, !lsr_prod. unfold lattice_sum. rewrite lsr_seq, <- rs_scal. apply rs_ext. intros i _. rewrite lsr_seq, <- !rs_scal. apply rs_ext. intros j _. rewrite lsr_seq, <- !rs_scal. apply rs_ext. intros k _.
  unfold sel, pos. cbn. destruct (s1 _), (s2 _ _), (s3 _ _ _); cbn; ring.
Qed.
End Fill.

(* ---- a family of arrays, indexed by the fineness of its lattice, that tends to a mass distribution ---- *)
Definition tends (fam : nat -> list pt -> Prop) (D : body) (r : R) : Prop :=
  (exists M, 0 <= M /\ forall n pts, fam n pts -> lsr (fun p => Rabs (pm p)) pts <= M) /\ (forall n pts p, fam n pts -> In p pts -> vnorm (pp p) <= r) /\
  forall (X : pspace) (F : X * vec -> R), UC (pprod X V3) Rs F -> exists G : X -> R, UC X Rs G /\ (forall x, D (fun a b c => RtoC (F (x, (a, b, c)))) (RtoC (G x))) /\
    forall A eps, 0 < eps -> exists N, forall n pts x, (N <= n)%nat -> fam n pts -> sn X x <= A -> Rabs (lsr (fun p => pm p * F (x, pp p)) pts - G x) <= eps.
Lemma CInt_RtoC (f : R -> R) a b v : is_RInt f a b v -> is_CInt (fun t => RtoC (f t)) a b (RtoC v).
Proof.
  intros H. split; cbn; [exact H|]. assert (Z := is_RInt_const (V := R_NormedModule) a b 0). unfold scal in Z; cbn in Z; unfold mult in Z; cbn in Z. now rewrite Rmult_0_r in Z.
Qed.
Lemma UC_scal (X : pspace) (f : X -> R) c : UC X Rs f -> UC X Rs (fun x => c * f x).
Proof. intros H. apply (UC_comp X Rs Rs f (fun t => c * t) H). apply UC_LL, (LL_mult Rs (fun _ => c) (fun t => t)); [apply (LL_const Rs)|apply (LL_id Rs)]. Qed.
Lemma ratio_err (mass S T I V MI d : R) : 0 < V -> Rabs (S - I) <= d -> Rabs (T - V) <= d -> Rabs I <= MI -> d <= V / 2 -> 0 <= MI -> Rabs (mass * (S / T) - mass / V * I) <= Rabs mass * (2 * d * (V + MI) / V ^ 2).
Proof.
  intros HV HS HT HI Hd HM. assert (T0 : V / 2 <= T) by (apply Rabs_le_between in HT; lra).
  replace (mass * (S / T) - mass / V * I) with (mass * (((S - I) * V - I * (T - V)) / (T * V))) by (field; lra).
  rewrite Rabs_mult. apply Rmult_le_compat_l; [apply Rabs_pos|]. assert (TV : 0 < T * V) by (apply Rmult_lt_0_compat; lra).
  unfold Rdiv at 1. rewrite Rabs_mult, (Rabs_pos_eq (/ (T * V))) by (left; now apply Rinv_0_lt_compat).
  assert (Nm : Rabs ((S - I) * V - I * (T - V)) <= d * (V + MI)).
  { unfold Rminus at 1. eapply Rle_trans; [apply Rabs_triang|]. rewrite Rabs_Ropp, !Rabs_mult, (Rabs_pos_eq V) by lra. assert (P1 := Rabs_pos (S - I)). assert (P2 := Rabs_pos I). assert (P3 := Rabs_pos (T - V)). nra. }
  assert (D0 : 0 <= d) by (eapply Rle_trans; [apply Rabs_pos|exact HS]).
  apply Rle_trans with (d * (V + MI) * / (T * V)); [apply Rmult_le_compat_r; [left; now apply Rinv_0_lt_compat|exact Nm]|].
  replace (2 * d * (V + MI) / V ^ 2) with (d * (V + MI) * / (V / 2 * V)) by (field; lra). apply Rmult_le_compat_l; [apply Rmult_le_pos; lra|]. apply Rinv_le_contravar; [apply Rmult_lt_0_compat; lra|]. apply Rmult_le_compat_r; lra.
Qed.

Section Tends.
Variables (P : R -> R -> R -> vec) (Q1 Q2 Q3 : vec -> R) (a1 b1 a2 b2 a3 b3 e f : R) (lo1 hi1 : R -> R) (lo2 hi2 : R -> R -> R) (s1 : R -> bool) (s2 : R -> R -> bool) (s3 : R -> R -> R -> bool).
Hypotheses (PQ : forall v, P (Q1 v) (Q2 v) (Q3 v) = v) (E1 : forall u v w, Q1 (P u v w) = u) (E2 : forall u v w, Q2 (P u v w) = v) (E3 : forall u v w, Q3 (P u v w) = w).
Hypothesis UP : LL V3 V3 (fun p => P (fst (fst p)) (snd (fst p)) (snd p)).
Hypotheses (H1 : a1 < b1) (H2 : a2 < b2) (H3 : a3 < b3) (Ha : a1 <= e) (He : e <= f) (Hf : f <= b1).
Hypothesis Hb1 : forall u, e <= u <= f -> a2 <= lo1 u /\ lo1 u <= hi1 u /\ hi1 u <= b2.
Hypothesis Hb2 : forall u v, e <= u <= f -> lo1 u <= v <= hi1 u -> a3 <= lo2 u v /\ lo2 u v <= hi2 u v /\ hi2 u v <= b3.
Hypotheses (U1 : UC Rs Rs lo1) (U2 : UC Rs Rs hi1) (U3 : UC P2 Rs (fun p => lo2 (fst p) (snd p))) (U4 : UC P2 Rs (fun p => hi2 (fst p) (snd p))).
Hypotheses (S1 : forall u, s1 u = true -> e <= u <= f) (S1' : forall u, e < u < f -> s1 u = true).
Hypotheses (S2 : forall u v, e <= u <= f -> s2 u v = true -> lo1 u <= v <= hi1 u) (S2' : forall u v, e <= u <= f -> lo1 u < v < hi1 u -> s2 u v = true).
Hypotheses (S3 : forall u v w, e <= u <= f -> lo1 u <= v <= hi1 u -> s3 u v w = true -> lo2 u v <= w <= hi2 u v) (S3' : forall u v w, e <= u <= f -> lo1 u <= v <= hi1 u -> lo2 u v < w < hi2 u v -> s3 u v w = true).
Variables (B : body) (V mass r : R) (fam : nat -> list pt -> Prop).
Hypotheses (RB : regular B) (HB : forall f' I, is_int3 e f lo1 hi1 lo2 hi2 (fun u v w => let '(x, y, z) := P u v w in f' x y z) I -> B f' I).
Hypotheses (HV : V <> 0) (BV : B (fun _ _ _ => RtoC 1) (RtoC V)).
Hypothesis Hfam : forall n pts, fam n pts -> exists n1 n2 n3, (n <= n1)%nat /\ (n <= n2)%nat /\ (n <= n3)%nat /\ (0 < n1)%nat /\ (0 < n2)%nat /\ (0 < n3)%nat /\ NoDup (map pp pts) /\
  (forall p, In p pts -> pm p = mass / INR (length pts)) /\
  (forall u v w, In (P u v w) (map pp pts) <-> (centre a1 b1 n1 u /\ centre a2 b2 n2 v /\ centre a3 b3 n3 w) /\ (s1 u = true /\ s2 u v = true /\ s3 u v w = true)).
Hypothesis Hr : forall n pts p, fam n pts -> In p pts -> vnorm (pp p) <= r.

Lemma UC_slice (X : pspace) (F : X * vec -> R) : UC (pprod X V3) Rs F -> UC (xf X) Rs (fun p : ((X * R) * R) * R => F (fst (fst (fst p)), P (snd (fst (fst p))) (snd (fst p)) (snd p))).
Proof.
  intros H. apply (UC_comp (xf X) (pprod X V3) Rs (fun p : ((X * R) * R) * R => (fst (fst (fst p)), P (snd (fst (fst p))) (snd (fst p)) (snd p))) F); [|exact H].
  apply UC_LL, (LL_pair (xf X) X V3 (fun p : ((X * R) * R) * R => fst (fst (fst p))) (fun p => P (snd (fst (fst p))) (snd (fst p)) (snd p))); [exact (LL_proj0 X)|].
  exact (LL_comp (xf X) V3 V3 (fun p : ((X * R) * R) * R => (snd (fst (fst p)), snd (fst p), snd p)) _ (LL_proj3 X) UP).
Qed.
Lemma equal_masses n pts g : fam n pts -> lsr (fun p => pm p * g (pp p)) pts = mass / INR (length pts) * lsr g (map pp pts).
Proof. intros HF. destruct (Hfam n pts HF) as (_ & _ & _ & _ & _ & _ & _ & _ & _ & _ & Hm & _). rewrite lsr_map, <- Newton.lsr_scal. apply Newton.lsr_ext. intros p Hp. now rewrite Hm. Qed.
Theorem fill_tends : tends fam (of_mass mass B) r.
Proof.
  split; [|split; [exact Hr|]].
  { exists (Rabs mass). split; [apply Rabs_pos|]. intros n pts HF. destruct (Hfam n pts HF) as (_ & _ & _ & _ & _ & _ & _ & _ & _ & _ & Hm & _).
    rewrite (Newton.lsr_ext _ (fun _ => Rabs (mass / INR (length pts)) * 1)) by (intros p Hp; rewrite Hm by exact Hp; ring). rewrite Newton.lsr_scal.
    replace (lsr (fun _ : pt => 1) pts) with (INR (length pts)) by (clear; unfold lsr; induction pts as [|p l IH]; [reflexivity|]; cbn [length fold_right]; rewrite S_INR, IH; ring).
    destruct (length pts) as [|k]; [cbn; rewrite Rmult_0_r; apply Rabs_pos|]. assert (K : 0 < INR (Datatypes.S k)) by (apply lt_0_INR; lia).
    unfold Rdiv. rewrite Rabs_mult, (Rabs_pos_eq (/ _)) by (left; now apply Rinv_0_lt_compat). right. field. lra. }
  intros X F UF.
  destruct (lattice_limit X a1 b1 a2 b2 a3 b3 e f lo1 hi1 lo2 hi2 s1 s2 s3 (fun x u v w => F (x, P u v w)) H1 H2 H3 Ha He Hf Hb1 Hb2 U1 U2 U3 U4 (UC_slice X F UF) S1 S1' S2 S2' S3 S3') as (I1 & I2 & I3 & UI & LF).
  destruct (lattice_limit Rs a1 b1 a2 b2 a3 b3 e f lo1 hi1 lo2 hi2 s1 s2 s3 (fun x u v w => 1) H1 H2 H3 Ha He Hf Hb1 Hb2 U1 U2 U3 U4 (UC_LL _ _ _ (LL_const (xf Rs) 1)) S1 S1' S2 S2' S3 S3') as (J1 & J2 & J3 & _ & L1).
  set (I := fun x : X => RInt (fun u => RInt (fun v => RInt (fun w => F (x, P u v w)) (lo2 u v) (hi2 u v)) (lo1 u) (hi1 u)) e f) in I3, UI, LF. set (W := fun x : R => RInt (fun u => RInt (fun v => RInt (fun _ => 1) (lo2 u v) (hi2 u v)) (lo1 u) (hi1 u)) e f) in J3, L1.
  assert (EW : W 0 = V).
  { assert (Q : B (fun _ _ _ => RtoC 1) (RtoC (W 0))). { apply HB. exists (fun u v => RtoC (RInt (fun _ => 1) (lo2 u v) (hi2 u v))), (fun u => RtoC (RInt (fun v => RInt (fun _ => 1) (lo2 u v) (hi2 u v)) (lo1 u) (hi1 u))). split; [|split].
      - intros u v. eapply is_CInt_ext; [intros t; destruct (P u v t) as [[x y] z]; reflexivity|]. apply (CInt_RtoC (fun _ => 1)). exact (J1 0 u v).
      - intros u. apply (CInt_RtoC (fun v => RInt (fun _ => 1) (lo2 u v) (hi2 u v))). exact (J2 0 u).
      - apply (CInt_RtoC (fun u => RInt (fun v => RInt (fun _ => 1) (lo2 u v) (hi2 u v)) (lo1 u) (hi1 u))). exact (J3 0). }
    assert (E := reg_unique _ RB _ _ _ Q BV). now injection E. }
  assert (BF : forall x, B (fun a b c => RtoC (F (x, (a, b, c)))) (RtoC (I x))).
  { intros x. apply HB. exists (fun u v => RtoC (RInt (fun w => F (x, P u v w)) (lo2 u v) (hi2 u v))), (fun u => RtoC (RInt (fun v => RInt (fun w => F (x, P u v w)) (lo2 u v) (hi2 u v)) (lo1 u) (hi1 u))). split; [|split].
    - intros u v. eapply is_CInt_ext; [|apply (CInt_RtoC (fun w => F (x, P u v w))); exact (I1 x u v)]. intros t; cbv beta. destruct (P u v t) as [[x' y] z]; reflexivity.
    - intros u. apply (CInt_RtoC (fun v => RInt (fun w => F (x, P u v w)) (lo2 u v) (hi2 u v))). exact (I2 x u).
    - apply (CInt_RtoC (fun u => RInt (fun v => RInt (fun w => F (x, P u v w)) (lo2 u v) (hi2 u v)) (lo1 u) (hi1 u))). exact (I3 x). }
  exists (fun x => mass / V * I x). split; [now apply UC_scal|]. split.
  { intros x. exists V, (RtoC (I x)). split; [exact HV|]. split; [exact BV|]. split; [apply BF|]. now rewrite <- RtoC_mult. }
  intros A eps Heps. destruct (UI A) as ((MI & HMI & BI) & _). change (forall x, sn X x <= A -> Rabs (I x) <= MI) in BI.
  assert (SUM : forall n1 n2 n3 pts g, (0 < n1)%nat -> (0 < n2)%nat -> (0 < n3)%nat -> NoDup (map pp pts) -> (forall u v w, In (P u v w) (map pp pts) <-> (centre a1 b1 n1 u /\ centre a2 b2 n2 v /\ centre a3 b3 n3 w) /\ (s1 u = true /\ s2 u v = true /\ s3 u v w = true)) ->
    cw a1 b1 n1 * cw a2 b2 n2 * cw a3 b3 n3 * lsr g (map pp pts) = lattice_sum a1 b1 a2 b2 a3 b3 n1 n2 n3 s1 s2 s3 (fun u v w => g (P u v w))).
  { intros. apply (fill_sum P Q1 Q2 Q3 a1 b1 a2 b2 a3 b3 n1 n2 n3); assumption. }
  (* the arrays are there for every n or never: the volume is positive *)
  destruct (Rlt_le_dec 0 V) as [PV|NV].
  - set (d := Rmin (V / 2) (eps * V ^ 2 / (2 * (Rabs mass + 1) * (V + MI)))).
    assert (PM := Rabs_pos mass). assert (V2 : 0 < V ^ 2) by (now apply pow_lt).
    assert (Hd : 0 < d). { apply Rmin_pos; [lra|]. apply Rdiv_lt_0_compat; [apply Rmult_lt_0_compat; lra|]. repeat apply Rmult_lt_0_compat; lra. }
    destruct (LF A d Hd) as (N1 & _ & Q4). destruct (L1 1 d Hd) as (N2 & _ & Q5). exists (N1 + N2)%nat. intros n pts x Hn HF Hx.
    rewrite (equal_masses n pts (fun v => F (x, v)) HF). destruct (Hfam n pts HF) as (n1 & n2 & n3 & M1 & M2 & M3 & K1 & K2 & K3 & ND & _ & HI).
    assert (Z1 : Rabs (lattice_sum a1 b1 a2 b2 a3 b3 n1 n2 n3 s1 s2 s3 (fun u v w => F (x, P u v w)) - I x) <= d) by exact (Q4 n1 n2 n3 x ltac:(lia) ltac:(lia) ltac:(lia) Hx). rewrite <- (SUM n1 n2 n3 pts (fun v => F (x, v)) K1 K2 K3 ND HI) in Z1.
    assert (Z2 : Rabs (lattice_sum a1 b1 a2 b2 a3 b3 n1 n2 n3 s1 s2 s3 (fun _ _ _ => 1) - W 0) <= d) by exact (Q5 n1 n2 n3 0 ltac:(lia) ltac:(lia) ltac:(lia) ltac:(cbn; rewrite Rabs_R0; lra)). rewrite <- (SUM n1 n2 n3 pts (fun v => 1) K1 K2 K3 ND HI), EW in Z2.
    replace (lsr (fun _ : vec => 1) (map pp pts)) with (INR (length pts)) in Z2. 2:{ clear. unfold lsr. induction pts as [|p l IH]; [reflexivity|]. cbn [length map fold_right]. rewrite S_INR, IH. ring. }
    set (c3 := cw a1 b1 n1 * cw a2 b2 n2 * cw a3 b3 n3) in *. assert (C3 : 0 < c3) by (unfold c3; apply Rmult_lt_0_compat; [apply Rmult_lt_0_compat|]; now apply cw_pos).
    assert (R := ratio_err mass _ _ _ V MI d PV Z1 Z2 (BI x Hx) (Rmin_l _ _) HMI).
    assert (L0 : 0 < INR (length pts)). { apply Rabs_le_between in Z2. assert (D' := Rmin_l (V / 2) (eps * V ^ 2 / (2 * (Rabs mass + 1) * (V + MI)))). fold d in D'. apply (Rmult_lt_reg_l c3); [exact C3|]. lra. }
    replace (mass * (c3 * lsr (fun v => F (x, v)) (map pp pts) / (c3 * INR (length pts)))) with (mass / INR (length pts) * lsr (fun v => F (x, v)) (map pp pts)) in R by (field; lra).
    eapply Rle_trans; [exact R|]. assert (D2 := Rmin_r (V / 2) (eps * V ^ 2 / (2 * (Rabs mass + 1) * (V + MI)))). fold d in D2.
    apply Rle_trans with ((Rabs mass + 1) * (2 * (eps * V ^ 2 / (2 * (Rabs mass + 1) * (V + MI))) * (V + MI) / V ^ 2)); [|right; field; lra].
    apply Rmult_le_compat; [exact PM| |lra|].
    + apply Rmult_le_pos; [|left; now apply Rinv_0_lt_compat]. apply Rmult_le_pos; lra.
    + apply Rmult_le_compat_r; [left; now apply Rinv_0_lt_compat|]. apply Rmult_le_compat_r; lra.
  - destruct (L1 1 (- V / 2) ltac:(lra)) as (N2 & _ & Q5). exists N2. intros n pts x Hn HF Hx. exfalso. destruct (Hfam n pts HF) as (n1 & n2 & n3 & M1 & M2 & M3 & K1 & K2 & K3 & ND & _ & HI).
    assert (Z2 : Rabs (lattice_sum a1 b1 a2 b2 a3 b3 n1 n2 n3 s1 s2 s3 (fun _ _ _ => 1) - W 0) <= - V / 2) by exact (Q5 n1 n2 n3 0 ltac:(lia) ltac:(lia) ltac:(lia) ltac:(cbn; rewrite Rabs_R0; lra)). rewrite <- (SUM n1 n2 n3 pts (fun v => 1) K1 K2 K3 ND HI), EW in Z2.
    assert (C3 : 0 < cw a1 b1 n1 * cw a2 b2 n2 * cw a3 b3 n3) by (apply Rmult_lt_0_compat; [apply Rmult_lt_0_compat|]; now apply cw_pos).
    assert (PL : 0 <= lsr (fun _ : vec => 1) (map pp pts)) by (clear; unfold lsr; induction pts; cbn; lra). assert (0 <= cw a1 b1 n1 * cw a2 b2 n2 * cw a3 b3 n3 * lsr (fun _ : vec => 1) (map pp pts)) by (apply Rmult_le_pos; lra). apply Rabs_le_between in Z2. lra.
Qed.
End Tends.
