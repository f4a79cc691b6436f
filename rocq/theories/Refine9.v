(* Sectors of rings whose outer radius varies with the height: their lattice points counted against the integral in polar coordinates. *)
From Coq Require Import Reals Lra Lia List.
From Coquelicot Require Import Coquelicot.
From Verif Require Import Glib LipInt BodyInt SolidSpec VInt PointSpec NewtonSpec Newton ShapeSpec GlibShapes GlibShapesProofs Refine2 Refine3 Refine4 Refine5 Polar Refine7 Refine8.
From Verif Require Import Cplx.
From Verif Require Import Refine.
Import ListNotations.
Open Scope R_scope.

Lemma centre_neg a b n x : centre (- b) (- a) n x <-> (0 < n)%nat /\ centre a b n (- x).
Proof.
  unfold centre. split.
  - intros (i & Hi & E). split; [lia|]. exists (n - 1 - i)%nat. split; [lia|]. rewrite !minus_INR by lia. rewrite E. cbn [INR]. assert (0 < INR n) by (apply lt_0_INR; lia). field. lra.
  - intros (Hn & i & Hi & E). exists (n - 1 - i)%nat. split; [lia|]. rewrite !minus_INR by lia. replace x with (- - x) by ring. rewrite E. cbn [INR]. assert (0 < INR n) by (now apply lt_0_INR). field. lra.
Qed.
Lemma cw_neg a b n : cw (- b) (- a) n = cw a b n. Proof. unfold cw. f_equal. ring. Qed.
Lemma RInt_shift (f : R -> R) c b : UC Rs Rs f -> RInt (fun t => f (c + t)) 0 b = RInt f c (c + b).
Proof.
  intros F. assert (E := RInt_comp_lin f 1 c 0 b (ex_int1 f _ _ F)). rewrite !Rmult_1_l, Rplus_0_l in E. rewrite (Rplus_comm c b), <- E. apply RInt_fext. intros t. rewrite Rplus_comm. unfold scal; cbn; unfold mult; cbn. now rewrite !Rmult_1_l.
Qed.
Lemma RInt_flip (f : R -> R) c b : UC Rs Rs f -> RInt (fun t => f (c - t)) 0 b = RInt f (c - b) c.
Proof.
  intros F. assert (E := RInt_comp_lin f (-1) c 0 b (ex_int1 f _ _ F)). rewrite Rmult_0_r, Rplus_0_l in E. replace (-1 * b + c) with (c - b) in E by ring.
  rewrite (RInt_rev f c (c - b)) by (now apply ex_int1). rewrite <- E. rewrite <- RInt_neg.
  - apply RInt_fext. intros t. replace (-1 * t + c) with (c - t) by ring. unfold scal; cbn; unfold mult; cbn. ring.
  - apply ex_int1. apply UC_mult; [apply UC_cst|]. apply (UC_comp Rs Rs Rs (fun t => -1 * t + c) f); [|exact F]. apply UC_add; [apply UC_mult; [apply UC_cst|apply UC_LL, LL_id]|apply UC_cst].
Qed.
Lemma whole2 (f : R -> R) b : UC Rs Rs f -> RInt f 0 b + RInt (fun t => f (- t)) 0 b = RInt f (- b) b.
Proof.
  intros F. rewrite (RInt_fext (fun t => f (- t)) (fun t => f (0 - t))) by (intros t; f_equal; ring). rewrite (RInt_flip f 0 b F). rewrite Rplus_comm. replace (0 - b) with (- b) by ring. now apply RInt_join.
Qed.
Lemma whole4 (f : R -> R) b : UC Rs Rs f -> RInt (fun t => f (- (PI / 2) - t)) 0 (b - PI / 2) + (RInt (fun t => f (PI / 2 + t)) 0 (b - PI / 2) + RInt f (- (PI / 2)) (PI / 2)) = RInt f (- b) b.
Proof.
  intros F. rewrite (RInt_shift f (PI / 2) _ F), (RInt_flip f (- (PI / 2)) _ F). replace (PI / 2 + (b - PI / 2)) with b by ring. replace (- (PI / 2) - (b - PI / 2)) with (- b) by ring.
  rewrite <- (RInt_join f (- b) (- (PI / 2)) b F), <- (RInt_join f (- (PI / 2)) (PI / 2) b F). ring.
Qed.

Definition posb (b : bool) (x : R) : bool := if b then if Rlt_dec 0 x then true else false else true.
Lemma posb_iff b x : posb b x = true <-> (b = true -> 0 < x).
Proof. unfold posb. destruct b; [destruct (Rlt_dec 0 x)|]; split; intros; try reflexivity; try assumption; try discriminate; try tauto. Qed.

Section Pieces.
Variables (z0 z1 r1 r2 : R) (rho : R -> R).
Hypotheses (Hz : z0 < z1) (H1 : 0 <= r1) (Hrho : forall z, z0 <= z <= z1 -> r1 <= rho z <= r2) (Urho : UC Rs Rs rho).

Section Piece.
Variables (beta k : R).
Hypotheses (Hk : k * sin beta = cos beta) (Hb : 0 < beta <= PI / 2).
Variables (P : R -> R -> R -> vec) (Q1 Q2 Q3 : vec -> R) (a2 b2 a3 b3 : R) (bv bw : bool) (bx : span).
Hypotheses (PQ : forall v, P (Q1 v) (Q2 v) (Q3 v) = v) (E1 : forall u v w, Q1 (P u v w) = u) (E2 : forall u v w, Q2 (P u v w) = v) (E3 : forall u v w, Q3 (P u v w) = w).
Hypothesis UP : LL V3 V3 (fun p => P (fst (fst p)) (snd (fst p)) (snd p)).
Hypotheses (A2 : a2 <= 0) (B2 : r2 * sin beta <= b2) (A3 : a3 <= r1 * cos beta) (B3 : r2 <= b3) (AB2 : a2 < b2) (AB3 : a3 < b3).
Hypothesis Hlat : forall k nx ny nz, (k <= nx)%nat -> (k <= ny)%nat -> (k <= nz)%nat -> (0 < nx)%nat -> (0 < ny)%nat -> (0 < nz)%nat ->
  exists n1 n2 n3, (k <= n1)%nat /\ (k <= n2)%nat /\ (k <= n3)%nat /\ (0 < n1)%nat /\ (0 < n2)%nat /\ (0 < n3)%nat /\ cellv bx nx ny nz = cw z0 z1 n1 * cw a2 b2 n2 * cw a3 b3 n3 /\
    forall u v w, on_lattice bx nx ny nz (P u v w) <-> centre z0 z1 n1 u /\ centre a2 b2 n2 v /\ centre a3 b3 n3 w.
Definition piece : region := fun p => z0 <= Q1 p <= z1 /\ sec beta k r1 (rho (Q1 p)) (Q3 p) (Q2 p) /\ (bv = true -> 0 < Q2 p) /\ (bw = true -> 0 < Q3 p).
Lemma piece_dec p : {piece p} + {~ piece p}.
Proof using z0 z1 r1 rho beta k Q1 Q2 Q3 bv bw.
  clear PQ E1 E2 E3 UP A2 B2 A3 B3 AB2 AB3 Hlat Hk Hb Hz H1 Hrho Urho P.
  destruct (inb z0 z1 (Q1 p) && (inb 0 (rho (Q1 p) * sin beta) (Q2 p) && inb (inner k r1 (Q2 p)) (sqrt (rho (Q1 p) ^ 2 - Q2 p ^ 2)) (Q3 p)) && (posb bv (Q2 p) && posb bw (Q3 p)))%bool eqn:E; [left|right].
  - rewrite !Bool.andb_true_iff, !inb_iff, !posb_iff in E. unfold piece, sec. tauto.
  - intros C. assert (T : (inb z0 z1 (Q1 p) && (inb 0 (rho (Q1 p) * sin beta) (Q2 p) && inb (inner k r1 (Q2 p)) (sqrt (rho (Q1 p) ^ 2 - Q2 p ^ 2)) (Q3 p)) && (posb bv (Q2 p) && posb bw (Q3 p)))%bool = true); [|congruence].
    rewrite !Bool.andb_true_iff, !inb_iff, !posb_iff. unfold piece, sec in C. tauto.
Qed.
Theorem piece_counts : counts bx piece (fun g => RInt (fun z => RInt (fun th => RInt (fun r => r * g (P z (r * sin th) (r * cos th))) r1 (rho z)) 0 beta) z0 z1).
Proof.
  assert (Uv : UC P2 Rs snd) by apply (UC_snd Rs Rs). assert (Uz : UC P2 Rs fst) by apply (UC_fst Rs Rs). assert (S0 : 0 < sin beta) by (apply s_pos; exact Hb). assert (K0 := k_pos beta k Hk Hb).
  apply (counts_ext bx piece piece (fun g => RInt (fun z => RInt (fun v => RInt (fun w => g (P z v w)) (inner k r1 v) (sqrt (rho z ^ 2 - v ^ 2))) 0 (rho z * sin beta)) z0 z1)).
  { intros v. tauto. }
  { intros g UG. apply RInt_in; [lra|]. intros z Hzz. assert (UH : UC P2 Rs (fun p => g (P z (snd p) (fst p)))).
    { apply (UC_comp P2 V3 Rs (fun p : R * R => P z (snd p) (fst p)) g); [|exact UG]. apply (UC_comp P2 V3 V3 (fun p : R * R => (z, snd p, fst p)) (fun p => P (fst (fst p)) (snd (fst p)) (snd p))); [|apply UC_LL; exact UP].
      apply (UC_pair P2 (pprod Rs Rs) Rs (fun p : R * R => (z, snd p)) fst); [|exact Uz]. apply (UC_pair P2 Rs Rs (fun _ => z) snd); [apply UC_cst|exact Uv]. }
    exact (ring_polar beta k Hk Hb (fun p => g (P z (snd p) (fst p))) r1 (rho z) UH (conj H1 (proj1 (Hrho z Hzz)))). }
  apply (counts_graph P Q1 Q2 Q3 z0 z1 a2 b2 a3 b3 z0 z1 (fun _ => 0) (fun z => rho z * sin beta) (fun _ v => inner k r1 v) (fun z v => sqrt (rho z ^ 2 - v ^ 2)) (inb z0 z1) (fun z v => inb 0 (rho z * sin beta) v && posb bv v)%bool (fun z v w => inb (inner k r1 v) (sqrt (rho z ^ 2 - v ^ 2)) w && posb bw w)%bool); try assumption; try lra.
  - intros z Hzz. assert (R := Hrho z Hzz). split; [exact A2|]. split; [apply Rmult_le_pos; lra|]. apply Rle_trans with (r2 * sin beta); [apply Rmult_le_compat_r; lra|exact B2].
  - intros z v Hzz Hv. assert (R := Hrho z Hzz). split; [apply Rle_trans with (r1 * cos beta); [exact A3|apply inner_ge; (assumption || lra)]|]. split; [apply (inner_le beta); (assumption || lra)|].
    apply Rle_trans with (rho z); [apply chord_le; lra|lra].
  - apply UC_cst.
  - apply UC_mult; [exact Urho|apply UC_cst].
  - exact (UC_comp P2 Rs Rs snd (inner k r1) Uv (U_inner k r1)).
  - apply UC_chord2; [exact (UC_comp P2 Rs Rs fst rho Uz Urho)|exact Uv].
  - intros u. apply inb_iff.
  - intros u Hu. apply inb_iff. lra.
  - intros u v _ E. apply Bool.andb_true_iff in E. now apply inb_iff.
  - intros u v _ Hv. apply Bool.andb_true_iff. split; [apply inb_iff; lra|apply posb_iff; intros _; lra].
  - intros u v w _ _ E. apply Bool.andb_true_iff in E. now apply inb_iff.
  - intros u v w _ Hv Hw. apply Bool.andb_true_iff. split; [apply inb_iff; lra|apply posb_iff; intros _]. apply Rle_lt_trans with (inner k r1 v); [apply (inner_ge0 beta); (assumption || lra)|lra].
  - intros u v w. unfold piece, sec. rewrite E1, E2, E3, !Bool.andb_true_iff, !inb_iff, !posb_iff. tauto.
Qed.
End Piece.
Definition polar (beta : R) (g : vec -> R) : R := RInt (fun z => RInt (fun th => RInt (fun r => r * g (r * cos th, r * sin th, z)) r1 (rho z)) (- beta) beta) z0 z1.
Definition ray (g : vec -> R) (p : R * R) : R := RInt (fun r => r * g (r * cos (snd p), r * sin (snd p), fst p)) r1 (rho (fst p)).
Lemma UC_three (X : pspace) (g : vec -> R) a b c : UC V3 Rs g -> UC X Rs a -> UC X Rs b -> UC X Rs c -> UC X Rs (fun x => g (a x, b x, c x)).
Proof. intros G A B C. apply (UC_comp X V3 Rs (fun x => (a x, b x, c x)) g); [|exact G]. apply (UC_pair X (pprod Rs Rs) Rs (fun x => (a x, b x)) c); [|exact C]. now apply (UC_pair X Rs Rs). Qed.
Lemma U_ray g : UC V3 Rs g -> UC P2 Rs (ray g).
Proof.
  intros G. unfold ray. apply (UC_int P2 (fun q : (R * R) * R => snd q * g (snd q * cos (snd (fst q)), snd q * sin (snd (fst q)), fst (fst q))) (fun _ => r1) (fun p => rho (fst p))).
  - assert (A1 : UC (pprod P2 Rs) Rs snd) by apply (UC_snd P2 Rs). assert (A2 : UC (pprod P2 Rs) Rs (fun q : (R * R) * R => fst (fst q))) by exact (UC_comp (pprod P2 Rs) P2 Rs fst fst (UC_fst P2 Rs) (UC_fst Rs Rs)). assert (A3 : UC (pprod P2 Rs) Rs (fun q : (R * R) * R => snd (fst q))) by exact (UC_comp (pprod P2 Rs) P2 Rs fst snd (UC_fst P2 Rs) (UC_snd Rs Rs)).
    apply UC_mult; [exact A1|]. apply UC_three; [exact G| | |exact A2]; apply UC_mult; try exact A1; [now apply UC_cos|now apply UC_sin].
  - apply UC_cst.
  - exact (UC_comp P2 Rs Rs fst rho (UC_fst Rs Rs) Urho).
Qed.
Lemma U_line g z (a : R -> R) : UC V3 Rs g -> UC Rs Rs a -> UC Rs Rs (fun t => ray g (z, a t)).
Proof. intros G A. apply (UC_two Rs (ray g) (fun _ => z) a (U_ray g G)); [apply UC_cst|exact A]. Qed.
Lemma U_fan g (a : R -> R) b : UC V3 Rs g -> UC Rs Rs a -> UC Rs Rs (fun z => RInt (fun t => ray g (z, a t)) 0 b).
Proof.
  intros G A. apply (UC_row (fun p => ray g (fst p, a (snd p))) 0 b). apply (UC_two P2 (ray g) fst (fun p => a (snd p)) (U_ray g G)); [apply (UC_fst Rs Rs)|exact (UC_comp P2 Rs Rs snd a (UC_snd Rs Rs) A)].
Qed.
Lemma PI2_range : 0 < PI / 2 <= PI / 2. Proof. assert (HPI := PI_RGT_0). lra. Qed.
Lemma k_half : 0 * sin (PI / 2) = cos (PI / 2). Proof. rewrite cos_PI2. ring. Qed.
Definition slab (beta : R) : region := fun p => let '(x, y, z) := p in z0 <= z <= z1 /\ in_sector r1 (rho z) beta x y.
Section Box.
Variable bx : span.
Hypotheses (BZ0 : s_z0 bx = z0) (BZ1 : s_z1 bx = z1) (BX : s_x0 bx < s_x1 bx) (BY : s_y0 bx < s_y1 bx) (B1 : r2 <= s_x1 bx).
Definition pz (p : vec) : R := snd p. Definition px (p : vec) : R := fst (fst p). Definition py (p : vec) : R := snd (fst p).
Lemma piece1 beta k : k * sin beta = cos beta -> 0 < beta <= PI / 2 -> s_x0 bx <= r1 * cos beta -> s_y0 bx <= 0 -> r2 * sin beta <= s_y1 bx ->
  counts bx (piece beta k pz py px false false) (fun g => RInt (fun z => RInt (fun t => ray g (z, t)) 0 beta) z0 z1).
Proof.
  intros Hk Hb Q1 Q2 Q3. assert (C := piece_counts beta k Hk Hb (fun z v w => (w, v, z)) pz py px (s_y0 bx) (s_y1 bx) (s_x0 bx) (s_x1 bx) false false bx).
  apply C; clear C; try assumption; try reflexivity; try lra.
  - intros [[x y] z]. reflexivity.
  - apply LL_zyx.
  - intros j nx ny nz K1 K2 K3 K4 K5 K6. exists nz, ny, nx. do 6 (split; [assumption|]). split; [unfold cellv; rewrite BZ0, BZ1; ring|]. intros u v w. unfold on_lattice. rewrite BZ0, BZ1. tauto.
Qed.
Lemma piece3 beta k : k * sin beta = cos beta -> 0 < beta <= PI / 2 -> s_x0 bx <= r1 * cos beta -> 0 <= s_y1 bx -> s_y0 bx <= - (r2 * sin beta) ->
  counts bx (piece beta k pz (fun p => - py p) px true false) (fun g => RInt (fun z => RInt (fun t => ray g (z, - t)) 0 beta) z0 z1).
Proof.
  intros Hk Hb Q1 Q2 Q3. assert (C := piece_counts beta k Hk Hb (fun z v w => (w, - v, z)) pz (fun p => - py p) px (- s_y1 bx) (- s_y0 bx) (s_x0 bx) (s_x1 bx) true false bx).
  eapply counts_ext; [intros v; reflexivity| |apply C; clear C; try assumption; try reflexivity; try lra].
  - intros g UG. cbv beta. apply RInt_fext. intros z. apply RInt_fext. intros t. unfold ray. cbn [fst snd]. apply RInt_fext. intros r. rewrite cos_neg, sin_neg. do 4 f_equal. ring.
  - intros [[x y] z]. unfold pz, py, px. cbn. refine (f_equal2 pair (f_equal2 pair _ _) _); ring.
  - intros u v w. unfold py. cbn. ring.
  - ll.
  - intros j nx ny nz K1 K2 K3 K4 K5 K6. exists nz, ny, nx. do 6 (split; [assumption|]). split; [unfold cellv; rewrite cw_neg, BZ0, BZ1; ring|]. intros u v w. unfold on_lattice. rewrite centre_neg, BZ0, BZ1. tauto.
Qed.
Lemma piece2 beta k : k * sin beta = cos beta -> 0 < beta <= PI / 2 -> s_y0 bx <= r1 * cos beta -> s_x0 bx <= - (r2 * sin beta) -> r2 <= s_y1 bx -> 0 <= s_x1 bx ->
  counts bx (piece beta k pz (fun p => - px p) py true false) (fun g => RInt (fun z => RInt (fun t => ray g (z, PI / 2 + t)) 0 beta) z0 z1).
Proof.
  intros Hk Hb Q1 Q2 Q3 Q4. assert (C := piece_counts beta k Hk Hb (fun z v w => (- v, w, z)) pz (fun p => - px p) py (- s_x1 bx) (- s_x0 bx) (s_y0 bx) (s_y1 bx) true false bx).
  eapply counts_ext; [intros v; reflexivity| |apply C; clear C; try assumption; try reflexivity; try lra].
  - intros g UG. cbv beta. apply RInt_fext. intros z. apply RInt_fext. intros t. unfold ray. cbn [fst snd]. apply RInt_fext. intros r. rewrite (cos_plus (PI / 2) t), (sin_plus (PI / 2) t), cos_PI2, sin_PI2. f_equal. f_equal. refine (f_equal2 pair (f_equal2 pair _ _) eq_refl); ring.
  - intros [[x y] z]. unfold pz, py, px. cbn. refine (f_equal2 pair (f_equal2 pair _ _) _); ring.
  - intros u v w. unfold px. cbn. ring.
  - ll.
  - intros j nx ny nz K1 K2 K3 K4 K5 K6. exists nz, nx, ny. do 6 (split; [assumption|]). split; [unfold cellv; rewrite cw_neg, BZ0, BZ1; ring|]. intros u v w. unfold on_lattice. rewrite centre_neg, BZ0, BZ1. tauto.
Qed.
Lemma piece4 beta k : k * sin beta = cos beta -> 0 < beta <= PI / 2 -> 0 <= s_y1 bx -> s_x0 bx <= - (r2 * sin beta) -> s_y0 bx <= - r2 -> - s_y1 bx <= r1 * cos beta -> 0 <= s_x1 bx ->
  counts bx (piece beta k pz (fun p => - px p) (fun p => - py p) true true) (fun g => RInt (fun z => RInt (fun t => ray g (z, - (PI / 2) - t)) 0 beta) z0 z1).
Proof.
  intros Hk Hb Q1 Q2 Q3 Q4 Q5. assert (C := piece_counts beta k Hk Hb (fun z v w => (- v, - w, z)) pz (fun p => - px p) (fun p => - py p) (- s_x1 bx) (- s_x0 bx) (- s_y1 bx) (- s_y0 bx) true true bx).
  eapply counts_ext; [intros v; reflexivity| |apply C; clear C; try assumption; try reflexivity; try lra].
  - intros g UG. cbv beta. apply RInt_fext. intros z. apply RInt_fext. intros t. unfold ray. cbn [fst snd]. apply RInt_fext. intros r. rewrite (cos_minus (- (PI / 2)) t), (sin_minus (- (PI / 2)) t), cos_neg, sin_neg, cos_PI2, sin_PI2. f_equal. f_equal. refine (f_equal2 pair (f_equal2 pair _ _) eq_refl); ring.
  - intros [[x y] z]. unfold pz, py, px. cbn. refine (f_equal2 pair (f_equal2 pair _ _) _); ring.
  - intros u v w. unfold px. cbn. ring.
  - intros u v w. unfold py. cbn. ring.
  - ll.
  - intros j nx ny nz K1 K2 K3 K4 K5 K6. exists nz, nx, ny. do 6 (split; [assumption|]). split; [unfold cellv; rewrite !cw_neg, BZ0, BZ1; ring|]. intros u v w. unfold on_lattice. rewrite !centre_neg, BZ0, BZ1. tauto.
Qed.
Lemma polar_split (g : vec -> R) a b (f1 f2 f : R -> R) : (forall z, a <= z <= b -> f1 z + f2 z = f z) -> a <= b -> UC Rs Rs f1 -> UC Rs Rs f2 -> RInt f1 a b + RInt f2 a b = RInt f a b.
Proof. intros H Hab U1 U2. rewrite <- RInt_sum by (now apply ex_int1). now apply RInt_in. Qed.
Theorem counts_small beta : 0 < beta <= PI / 2 -> s_x0 bx <= r1 * cos beta -> s_y0 bx <= - (r2 * sin beta) -> r2 * sin beta <= s_y1 bx -> counts bx (slab beta) (polar beta).
Proof.
  intros Hb Q1 Q2 Q3. assert (S := s_pos beta Hb). assert (Hk : cos beta / sin beta * sin beta = cos beta) by (field; lra). set (k := cos beta / sin beta) in *.
  assert (R0 : 0 <= r2) by (assert (A := Hrho z0 ltac:(lra)); lra). assert (RS : 0 <= r2 * sin beta) by (apply Rmult_le_pos; lra).
  assert (U0 : UC Rs Rs (fun y => y)) by (apply UC_LL, LL_id). assert (Un : UC Rs Rs (fun y => - y)) by (now apply UC_opp).
  assert (D : forall p, piece beta k pz py px false false p -> ~ piece beta k pz (fun p => - py p) px true false p).
  { intros [[x y] z]. unfold piece, sec, pz, py, px. cbn [fst snd]. intros (_ & ((Y & _) & _) & _) (_ & _ & Y' & _). specialize (Y' eq_refl). lra. }
  assert (C := counts_union bx _ _ (fun p => piece beta k pz py px false false p \/ piece beta k pz (fun p => - py p) px true false p) _ _ (piece_dec beta k pz py px false false) (fun p => iff_refl _) D (piece1 beta k Hk Hb Q1 ltac:(lra) Q3) (piece3 beta k Hk Hb Q1 ltac:(lra) Q2)).
  refine (counts_ext bx _ _ _ _ _ _ C); clear C.
  - intros [[x y] z]. unfold piece, slab, pz, py, px. cbn [fst snd]. unfold in_sector. split.
    + intros [(Z & C & _)|(Z & C & _)]; (split; [exact Z|]); apply (sec_iff beta k Hk Hb) in C; try (assert (A := Hrho z Z); lra); destruct C as (r & q & C1 & C2 & C3 & C4).
      * exists r, q. split; [exact C1|]. split; [lra|]. now split.
      * exists r, (- q). split; [exact C1|]. split; [lra|]. rewrite cos_neg, sin_neg. split; [exact C3|]. lra.
    + intros (Z & r & q & C1 & C2 & C3 & C4). assert (A := Hrho z Z). destruct (Rle_dec y 0) as [Y|Y].
      * destruct (Req_dec y 0) as [Y0|Y0].
        -- left. split; [exact Z|]. split; [|split; discriminate]. apply (sec_iff beta k Hk Hb); [lra|]. destruct (Rle_dec 0 q) as [G|G].
           ++ exists r, q. split; [exact C1|]. split; [lra|]. now split.
           ++ exists r, (- q). split; [exact C1|]. split; [lra|]. rewrite cos_neg, sin_neg. split; [exact C3|]. lra.
        -- right. split; [exact Z|]. split; [|split; [intros _; lra|discriminate]]. apply (sec_iff beta k Hk Hb); [lra|]. exists r, (- q). split; [exact C1|]. rewrite cos_neg, sin_neg. split; [|split; [exact C3|lra]].
           split; [|lra]. apply Rnot_lt_le. intros G. assert (HPI := PI_RGT_0). assert (0 <= sin q) by (apply sin_ge_0; lra). assert (0 <= r * sin q) by (apply Rmult_le_pos; lra). lra.
      * left. split; [exact Z|]. split; [|split; discriminate]. apply (sec_iff beta k Hk Hb); [lra|]. exists r, q. split; [exact C1|]. split; [|now split].
        split; [|lra]. apply Rnot_lt_le. intros G. assert (HPI := PI_RGT_0). assert (0 <= sin (- q)) by (apply sin_ge_0; lra). rewrite sin_neg in H. assert (0 <= r * - sin q) by (apply Rmult_le_pos; lra). lra.
  - intros g UG. cbv beta. unfold polar. apply (polar_split g); [|lra|exact (U_fan g _ beta UG U0)|exact (U_fan g _ beta UG Un)]. intros z _. exact (whole2 (fun t => ray g (z, t)) beta (U_line g z _ UG U0)).
Qed.
Lemma U_arc g a b : UC V3 Rs g -> UC Rs Rs (fun z => RInt (fun t => ray g (z, t)) a b).
Proof. intros G. exact (UC_row (ray g) a b (U_ray g G)). Qed.
Theorem counts_large beta : PI / 2 < beta <= PI -> s_x0 bx <= r2 * cos beta -> s_y0 bx <= - r2 -> r2 <= s_y1 bx -> counts bx (slab beta) (polar beta).
Proof.
  intros Hb Q1 Q2 Q3. assert (HPI := PI_RGT_0). set (b' := beta - PI / 2). assert (Hb' : 0 < b' <= PI / 2) by (unfold b'; lra). assert (S := s_pos b' Hb'). assert (Hk : cos b' / sin b' * sin b' = cos b') by (field; lra). set (k := cos b' / sin b') in *.
  assert (R0 : 0 <= r2) by (assert (A := Hrho z0 ltac:(lra)); lra). assert (CB : cos beta = - sin b') by (unfold b'; rewrite sin_minus, sin_PI2, cos_PI2; ring). rewrite CB in Q1.
  assert (RS : 0 <= r2 * sin b') by (apply Rmult_le_pos; lra). assert (C0 : 0 <= cos b') by (apply cos_ge_0; lra). assert (RC : 0 <= r1 * cos b') by (now apply Rmult_le_pos).
  assert (C1 : counts bx (slab (PI / 2)) (polar (PI / 2))) by (apply counts_small; rewrite ?cos_PI2, ?sin_PI2; lra).
  assert (C2 := piece2 b' k Hk Hb' ltac:(lra) ltac:(lra) ltac:(lra) ltac:(lra)). assert (C4 := piece4 b' k Hk Hb' ltac:(lra) ltac:(lra) ltac:(lra) ltac:(lra) ltac:(lra)).
  assert (XP : forall x y z, slab (PI / 2) (x, y, z) -> 0 <= x). { intros x y z (Z & r & q & K1 & K2 & -> & _). assert (A := Hrho z Z). apply Rmult_le_pos; [lra|apply cos_ge_0; lra]. }
  assert (D2 : forall p, piece b' k pz (fun p => - px p) py true false p -> ~ slab (PI / 2) p). { intros [[x y] z] (_ & _ & X & _) G. specialize (X eq_refl). unfold px in X. cbn in X. apply XP in G. lra. }
  assert (C12 := counts_union bx _ _ (fun p => piece b' k pz (fun p => - px p) py true false p \/ slab (PI / 2) p) _ _ (piece_dec b' k pz (fun p => - px p) py true false) (fun p => iff_refl _) D2 C2 C1).
  assert (D4 : forall p, piece b' k pz (fun p => - px p) (fun p => - py p) true true p -> ~ (piece b' k pz (fun p => - px p) py true false p \/ slab (PI / 2) p)).
  { intros [[x y] z] (_ & _ & X & Y) [G|G]; specialize (X eq_refl); specialize (Y eq_refl); unfold px, py in X, Y; cbn in X, Y.
    - destruct G as (_ & ((V & _) & (W & _)) & _). unfold px, py in V, W. cbn in V, W. assert (I := inner_ge0 b' k Hk Hb' r1 (- x) V). lra.
    - apply XP in G. lra. }
  assert (C := counts_union bx _ _ (fun p => piece b' k pz (fun p => - px p) (fun p => - py p) true true p \/ (piece b' k pz (fun p => - px p) py true false p \/ slab (PI / 2) p)) _ _ (piece_dec b' k pz (fun p => - px p) (fun p => - py p) true true) (fun p => iff_refl _) D4 C4 C12).
  refine (counts_ext bx _ _ _ _ _ _ C); clear C C1 C2 C4 C12.
  - intros [[x y] z]. unfold piece, pz, py, px. cbn [fst snd]. unfold slab, in_sector. split.
    + intros [(Z & K & _)|[(Z & K & _)|(Z & r & q & K1 & K2 & K3)]]; [| |split; [exact Z|]; exists r, q; split; [exact K1|]; split; [lra|exact K3]]; (split; [exact Z|]); apply (sec_iff b' k Hk Hb') in K; try (assert (A := Hrho z Z); lra); destruct K as (r & q & K1 & K2 & K3 & K4).
      * exists r, (- q - PI / 2). split; [exact K1|]. unfold b' in K2. split; [lra|]. rewrite cos_minus, sin_minus, cos_neg, sin_neg, cos_PI2, sin_PI2. split; [replace x with (- - x) by ring; rewrite K4; ring|replace y with (- - y) by ring; rewrite K3; ring].
      * exists r, (q + PI / 2). split; [exact K1|]. unfold b' in K2. split; [lra|]. rewrite cos_plus, sin_plus, cos_PI2, sin_PI2. split; [replace x with (- - x) by ring; rewrite K4; ring|rewrite K3; ring].
    + intros (Z & r & q & K1 & K2 & K3 & K4). assert (A := Hrho z Z). destruct (Req_dec r 0) as [R|R].
      { right. right. split; [exact Z|]. exists r, 0. split; [exact K1|]. split; [lra|]. rewrite K3, K4, R. split; ring. }
      destruct (Rlt_dec (PI / 2) q) as [G|G]; [|destruct (Rlt_dec q (- (PI / 2))) as [G'|G']].
      * right. left. split; [exact Z|]. assert (Sq : sin (q - PI / 2) = - cos q) by (rewrite sin_minus, sin_PI2, cos_PI2; ring). assert (Cq : cos (q - PI / 2) = sin q) by (rewrite cos_minus, sin_PI2, cos_PI2; ring).
        split; [|split; [intros _|discriminate]].
        -- apply (sec_iff b' k Hk Hb'); [lra|]. exists r, (q - PI / 2). split; [exact K1|]. unfold b'. split; [lra|]. rewrite Sq, Cq, K3, K4. split; ring.
        -- assert (P : 0 < sin (q - PI / 2)) by (apply sin_gt_0; lra). rewrite Sq in P. assert (0 < r * - cos q) by (apply Rmult_lt_0_compat; lra). lra.
      * set (t := - q - PI / 2). assert (Ht : 0 < t <= b') by (unfold t, b'; lra). assert (Sq : sin t = - cos q) by (unfold t; rewrite sin_minus, sin_neg, cos_neg, sin_PI2, cos_PI2; ring). assert (Cq : cos t = - sin q) by (unfold t; rewrite cos_minus, sin_neg, cos_neg, sin_PI2, cos_PI2; ring).
        assert (P : 0 < sin t) by (apply sin_gt_0; lra). assert (PX : 0 < - x) by (rewrite K3; replace (- (r * cos q)) with (r * sin t) by (rewrite Sq; ring); apply Rmult_lt_0_compat; lra).
        assert (PC : 0 <= cos t) by (apply cos_ge_0; lra).
        destruct (Req_dec y 0) as [Y|Y].
        -- right. left. split; [exact Z|]. split; [|split; [intros _; exact PX|discriminate]]. apply (sec_iff b' k Hk Hb'); [lra|]. exists r, t. split; [exact K1|]. split; [lra|]. split; [|rewrite K3, Sq; ring]. rewrite Cq. replace (r * - sin q) with (- y) by (rewrite K4; ring). lra.
        -- left. split; [exact Z|]. split; [|split; [intros _; exact PX|intros _]].
           ++ apply (sec_iff b' k Hk Hb'); [lra|]. exists r, t. split; [exact K1|]. split; [lra|]. rewrite Sq, Cq, K3, K4. split; ring.
           ++ assert (0 <= - y) by (rewrite K4; replace (- (r * sin q)) with (r * cos t) by (rewrite Cq; ring); apply Rmult_le_pos; lra). lra.
      * right. right. split; [exact Z|]. exists r, q. split; [exact K1|]. split; [lra|]. now split.
  - intros g UG. cbv beta. assert (U0 : UC Rs Rs (fun y => y)) by (apply UC_LL, LL_id). assert (Ua : UC Rs Rs (fun y => PI / 2 + y)) by (apply UC_add; [apply UC_cst|exact U0]). assert (Um : UC Rs Rs (fun y => - (PI / 2) - y)) by (apply UC_sub; [apply UC_cst|exact U0]).
    assert (PS := polar_split g z0 z1 (fun z => RInt (fun t => ray g (z, PI / 2 + t)) 0 b') (fun z => RInt (fun t => ray g (z, t)) (- (PI / 2)) (PI / 2)) (fun z => RInt (fun t => ray g (z, PI / 2 + t)) 0 b' + RInt (fun t => ray g (z, t)) (- (PI / 2)) (PI / 2)) (fun z _ => eq_refl) ltac:(lra) (U_fan g _ b' UG Ua) (U_arc g _ _ UG)).
    refine (eq_trans (f_equal (Rplus (RInt (fun z => RInt (fun t => ray g (z, - (PI / 2) - t)) 0 b') z0 z1)) PS) _). unfold polar.
    apply (polar_split g); [|lra|exact (U_fan g _ b' UG Um)|apply UC_add; [exact (U_fan g _ b' UG Ua)|exact (U_arc g _ _ UG)]]. intros z _. exact (whole4 (fun t => ray g (z, t)) beta (U_line g z _ UG U0)).
Qed.
End Box.
End Pieces.
