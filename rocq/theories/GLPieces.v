(* Sectors of rings whose outer radius varies with the height: the Gauss-Legendre points in them summed against the integral in polar coordinates. *)
From Coq Require Import Reals Lra Lia List.
From Coquelicot Require Import Coquelicot.
From Verif Require Import Glib LipInt BodyInt SolidSpec VInt PointSpec NewtonSpec Newton ShapeSpec GlibShapes GlibShapesProofs GLSpec Gauss Refine2 Refine3 Refine4 Refine5 Polar Refine7 Refine8.
From Verif Require Import Cplx.
From Verif Require Import Refine Refine9 Refine10 GLEven GLLimit GLCount.
Import ListNotations.
Open Scope R_scope.

Section Pieces.
Variables (z0 z1 r1 r2 : R) (rho : R -> R).
Hypotheses (Hz : z0 < z1) (H1 : 0 <= r1) (Hrho : forall z, z0 <= z <= z1 -> r1 <= rho z <= r2) (Urho : UC Rs Rs rho).

Local Notation piece := (Refine9.piece z0 z1 r1 rho).
Local Notation polar := (Refine9.polar z0 z1 r1 rho).
Local Notation ray := (Refine9.ray r1 rho).
Local Notation slab := (Refine9.slab z0 z1 r1 rho).
Section Piece.
Variables (beta k : R).
Hypotheses (Hk : k * sin beta = cos beta) (Hb : 0 < beta <= PI / 2).
Variables (P : R -> R -> R -> vec) (Q1 Q2 Q3 : vec -> R) (a2 b2 a3 b3 : R) (bv bw : bool) (bx : span).
Hypotheses (PQ : forall v, P (Q1 v) (Q2 v) (Q3 v) = v) (E1 : forall u v w, Q1 (P u v w) = u) (E2 : forall u v w, Q2 (P u v w) = v) (E3 : forall u v w, Q3 (P u v w) = w).
Hypothesis UP : LL V3 V3 (fun p => P (fst (fst p)) (snd (fst p)) (snd p)).
Hypotheses (A2 : a2 <= 0) (B2 : r2 * sin beta <= b2) (A3 : a3 <= r1 * cos beta) (B3 : r2 <= b3) (AB2 : a2 < b2) (AB3 : a3 < b3).
Hypothesis Hlat : forall k nx ny nz rx ry rz, (k <= nx)%nat -> (k <= ny)%nat -> (k <= nz)%nat -> gauss_rule nx rx -> gauss_rule ny ry -> gauss_rule nz rz ->
  exists n1 n2 n3 q1 q2 q3, (k <= n1)%nat /\ (k <= n2)%nat /\ (k <= n3)%nat /\ gauss_rule n1 q1 /\ gauss_rule n2 q2 /\ gauss_rule n3 q3 /\
    forall h, gsum bx rx ry rz h = gq z0 z1 q1 (fun u => gq a2 b2 q2 (fun v => gq a3 b3 q3 (fun w => h (P u v w)))).
Theorem gpiece_counts : gcounts bx (piece beta k Q1 Q2 Q3 bv bw) (fun g => RInt (fun z => RInt (fun th => RInt (fun r => r * g (P z (r * sin th) (r * cos th))) r1 (rho z)) 0 beta) z0 z1).
Proof.
  assert (Uv : UC P2 Rs snd) by apply (UC_snd Rs Rs). assert (Uz : UC P2 Rs fst) by apply (UC_fst Rs Rs). assert (S0 : 0 < sin beta) by (apply s_pos; exact Hb). assert (K0 := k_pos beta k Hk Hb).
  apply (gcounts_ext bx (piece beta k Q1 Q2 Q3 bv bw) (piece beta k Q1 Q2 Q3 bv bw) (fun g => RInt (fun z => RInt (fun v => RInt (fun w => g (P z v w)) (inner k r1 v) (sqrt (rho z ^ 2 - v ^ 2))) 0 (rho z * sin beta)) z0 z1)).
  { intros v. tauto. }
  { intros g UG. apply RInt_in; [lra|]. intros z Hzz. assert (UH : UC P2 Rs (fun p => g (P z (snd p) (fst p)))).
    { apply (UC_comp P2 V3 Rs (fun p : R * R => P z (snd p) (fst p)) g); [|exact UG]. apply (UC_comp P2 V3 V3 (fun p : R * R => (z, snd p, fst p)) (fun p => P (fst (fst p)) (snd (fst p)) (snd p))); [|apply UC_LL; exact UP].
      apply (UC_pair P2 (pprod Rs Rs) Rs (fun p : R * R => (z, snd p)) fst); [|exact Uz]. apply (UC_pair P2 Rs Rs (fun _ => z) snd); [apply UC_cst|exact Uv]. }
    exact (ring_polar beta k Hk Hb (fun p => g (P z (snd p) (fst p))) r1 (rho z) UH (conj H1 (proj1 (Hrho z Hzz)))). }
  apply (gcounts_graph P z0 z1 a2 b2 a3 b3 z0 z1 (fun _ => 0) (fun z => rho z * sin beta) (fun _ v => inner k r1 v) (fun z v => sqrt (rho z ^ 2 - v ^ 2)) (inb z0 z1) (fun z v => inb 0 (rho z * sin beta) v && posb bv v)%bool (fun z v w => inb (inner k r1 v) (sqrt (rho z ^ 2 - v ^ 2)) w && posb bw w)%bool); try assumption; try lra.
  - intros z Hzz. assert (R := Hrho z Hzz). split; [exact A2|]. split; [apply Rmult_le_pos; lra|]. apply Rle_trans with (r2 * sin beta); [apply Rmult_le_compat_r; lra|exact B2].
  - intros z v Hzz Hv. assert (R := Hrho z Hzz). split; [apply Rle_trans with (r1 * cos beta); [exact A3|apply inner_ge; (assumption || lra)]|]. split; [apply (inner_le beta); (assumption || lra)|].
    apply Rle_trans with (rho z); [apply chord_le; lra|lra].
  - apply UC_cst.
  - apply UC_mult; [exact Urho|apply UC_cst].
  - exact (UC_comp P2 Rs Rs snd (inner k r1) Uv (U_inner k r1)).
  - apply UC_chord2; [exact (UC_comp P2 Rs Rs fst rho Uz Urho)|exact Uv].
  - intros u. apply inb_iff.
  - intros u Hu. apply inb_iff. lra.
  - intros u v _ E. apply Bool.andb_true_iff in E. now apply inb_iff.
  - intros u v _ Hv. apply Bool.andb_true_iff. split; [apply inb_iff; lra|apply posb_iff; intros _; lra].
  - intros u v w _ _ E. apply Bool.andb_true_iff in E. now apply inb_iff.
  - intros u v w _ Hv Hw. apply Bool.andb_true_iff. split; [apply inb_iff; lra|apply posb_iff; intros _]. apply Rle_lt_trans with (inner k r1 v); [apply (inner_ge0 beta); (assumption || lra)|lra].
  - intros u v w. unfold Refine9.piece, sec. rewrite E1, E2, E3, !Bool.andb_true_iff, !inb_iff, !posb_iff. tauto.
Qed.
End Piece.
Lemma U_ray g : UC V3 Rs g -> UC P2 Rs (ray g).
Proof.
  intros G. unfold Refine9.ray. apply (UC_int P2 (fun q : (R * R) * R => snd q * g (snd q * cos (snd (fst q)), snd q * sin (snd (fst q)), fst (fst q))) (fun _ => r1) (fun p => rho (fst p))).
  - assert (A1 : UC (pprod P2 Rs) Rs snd) by apply (UC_snd P2 Rs). assert (A2 : UC (pprod P2 Rs) Rs (fun q : (R * R) * R => fst (fst q))) by exact (UC_comp (pprod P2 Rs) P2 Rs fst fst (UC_fst P2 Rs) (UC_fst Rs Rs)). assert (A3 : UC (pprod P2 Rs) Rs (fun q : (R * R) * R => snd (fst q))) by exact (UC_comp (pprod P2 Rs) P2 Rs fst snd (UC_fst P2 Rs) (UC_snd Rs Rs)).
    apply UC_mult; [exact A1|]. apply UC_three; [exact G| | |exact A2]; apply UC_mult; try exact A1; [now apply UC_cos|now apply UC_sin].
  - apply UC_cst.
  - exact (UC_comp P2 Rs Rs fst rho (UC_fst Rs Rs) Urho).
Qed.
Lemma U_line g z (a : R -> R) : UC V3 Rs g -> UC Rs Rs a -> UC Rs Rs (fun t => ray g (z, a t)).
Proof. intros G A. apply (UC_two Rs (ray g) (fun _ => z) a (U_ray g G)); [apply UC_cst|exact A]. Qed.
Lemma U_fan g (a : R -> R) b : UC V3 Rs g -> UC Rs Rs a -> UC Rs Rs (fun z => RInt (fun t => ray g (z, a t)) 0 b).
Proof.
  intros G A. apply (UC_row (fun p => ray g (fst p, a (snd p))) 0 b). apply (UC_two P2 (ray g) fst (fun p => a (snd p)) (U_ray g G)); [apply (UC_fst Rs Rs)|exact (UC_comp P2 Rs Rs snd a (UC_snd Rs Rs) A)].
Qed.
Section Box.
Variable bx : span.
Hypotheses (BZ0 : s_z0 bx = z0) (BZ1 : s_z1 bx = z1) (BX : s_x0 bx < s_x1 bx) (BY : s_y0 bx < s_y1 bx) (B1 : r2 <= s_x1 bx).
Lemma piece1 beta k : k * sin beta = cos beta -> 0 < beta <= PI / 2 -> s_x0 bx <= r1 * cos beta -> s_y0 bx <= 0 -> r2 * sin beta <= s_y1 bx ->
  gcounts bx (piece beta k pz py px false false) (fun g => RInt (fun z => RInt (fun t => ray g (z, t)) 0 beta) z0 z1).
Proof.
  intros Hk Hb Q1 Q2 Q3. assert (C := gpiece_counts beta k Hk Hb (fun z v w => (w, v, z)) pz py px (s_y0 bx) (s_y1 bx) (s_x0 bx) (s_x1 bx) false false bx).
  apply C; clear C; try assumption; try reflexivity; try lra.
  - apply LL_zyx.
  - intros j nx ny nz rx ry rz K1 K2 K3 G1 G2 G3. exists nz, ny, nx, rz, ry, rx. do 6 (split; [assumption|]). intros h. unfold gsum. now rewrite BZ0, BZ1.
Qed.
Lemma piece3 beta k : k * sin beta = cos beta -> 0 < beta <= PI / 2 -> s_x0 bx <= r1 * cos beta -> 0 <= s_y1 bx -> s_y0 bx <= - (r2 * sin beta) ->
  gcounts bx (piece beta k pz (fun p => - py p) px true false) (fun g => RInt (fun z => RInt (fun t => ray g (z, - t)) 0 beta) z0 z1).
Proof.
  intros Hk Hb Q1 Q2 Q3. assert (C := gpiece_counts beta k Hk Hb (fun z v w => (w, - v, z)) pz (fun p => - py p) px (- s_y1 bx) (- s_y0 bx) (s_x0 bx) (s_x1 bx) true false bx).
  eapply gcounts_ext; [intros v; reflexivity| |apply C; clear C; try assumption; try reflexivity; try lra].
  - intros g UG. cbv beta. apply RInt_fext. intros z. apply RInt_fext. intros t. unfold Refine9.ray. cbn [fst snd]. apply RInt_fext. intros r. rewrite cos_neg, sin_neg. do 4 f_equal. ring.
  - intros u v w. unfold py. cbn. ring.
  - ll.
  - intros j nx ny nz rx ry rz K1 K2 K3 G1 G2 G3. exists nz, ny, nx, rz, ry, rx. do 6 (split; [assumption|]). intros h. unfold gsum. rewrite BZ0, BZ1. apply gq_eq. intros z. symmetry. exact (gq_neg (s_y0 bx) (s_y1 bx) ny ry (fun y => gq (s_x0 bx) (s_x1 bx) rx (fun x => h (x, y, z))) G2).
Qed.
Lemma piece2 beta k : k * sin beta = cos beta -> 0 < beta <= PI / 2 -> s_y0 bx <= r1 * cos beta -> s_x0 bx <= - (r2 * sin beta) -> r2 <= s_y1 bx -> 0 <= s_x1 bx ->
  gcounts bx (piece beta k pz (fun p => - px p) py true false) (fun g => RInt (fun z => RInt (fun t => ray g (z, PI / 2 + t)) 0 beta) z0 z1).
Proof.
  intros Hk Hb Q1 Q2 Q3 Q4. assert (C := gpiece_counts beta k Hk Hb (fun z v w => (- v, w, z)) pz (fun p => - px p) py (- s_x1 bx) (- s_x0 bx) (s_y0 bx) (s_y1 bx) true false bx).
  eapply gcounts_ext; [intros v; reflexivity| |apply C; clear C; try assumption; try reflexivity; try lra].
  - intros g UG. cbv beta. apply RInt_fext. intros z. apply RInt_fext. intros t. unfold Refine9.ray. cbn [fst snd]. apply RInt_fext. intros r. rewrite (cos_plus (PI / 2) t), (sin_plus (PI / 2) t), cos_PI2, sin_PI2. f_equal. f_equal. refine (f_equal2 pair (f_equal2 pair _ _) eq_refl); ring.
  - intros u v w. unfold px. cbn. ring.
  - ll.
  - intros j nx ny nz rx ry rz K1 K2 K3 G1 G2 G3. exists nz, nx, ny, rz, rx, ry. do 6 (split; [assumption|]). intros h. unfold gsum. rewrite BZ0, BZ1. apply gq_eq. intros z. rewrite gq_swap. symmetry. exact (gq_neg (s_x0 bx) (s_x1 bx) nx rx (fun x => gq (s_y0 bx) (s_y1 bx) ry (fun y => h (x, y, z))) G1).
Qed.
Lemma piece4 beta k : k * sin beta = cos beta -> 0 < beta <= PI / 2 -> 0 <= s_y1 bx -> s_x0 bx <= - (r2 * sin beta) -> s_y0 bx <= - r2 -> - s_y1 bx <= r1 * cos beta -> 0 <= s_x1 bx ->
  gcounts bx (piece beta k pz (fun p => - px p) (fun p => - py p) true true) (fun g => RInt (fun z => RInt (fun t => ray g (z, - (PI / 2) - t)) 0 beta) z0 z1).
Proof.
  intros Hk Hb Q1 Q2 Q3 Q4 Q5. assert (C := gpiece_counts beta k Hk Hb (fun z v w => (- v, - w, z)) pz (fun p => - px p) (fun p => - py p) (- s_x1 bx) (- s_x0 bx) (- s_y1 bx) (- s_y0 bx) true true bx).
  eapply gcounts_ext; [intros v; reflexivity| |apply C; clear C; try assumption; try reflexivity; try lra].
  - intros g UG. cbv beta. apply RInt_fext. intros z. apply RInt_fext. intros t. unfold Refine9.ray. cbn [fst snd]. apply RInt_fext. intros r. rewrite (cos_minus (- (PI / 2)) t), (sin_minus (- (PI / 2)) t), cos_neg, sin_neg, cos_PI2, sin_PI2. f_equal. f_equal. refine (f_equal2 pair (f_equal2 pair _ _) eq_refl); ring.
  - intros u v w. unfold px. cbn. ring.
  - intros u v w. unfold py. cbn. ring.
  - ll.
  - intros j nx ny nz rx ry rz K1 K2 K3 G1 G2 G3. exists nz, nx, ny, rz, rx, ry. do 6 (split; [assumption|]). intros h. unfold gsum. rewrite BZ0, BZ1. apply gq_eq. intros z. rewrite gq_swap. symmetry. rewrite <- (gq_neg (s_x0 bx) (s_x1 bx) nx rx (fun x => gq (s_y0 bx) (s_y1 bx) ry (fun y => h (x, y, z))) G1). apply gq_eq. intros v. exact (gq_neg (s_y0 bx) (s_y1 bx) ny ry (fun y => h (- v, y, z)) G2).
Qed.
Theorem gcounts_small beta : 0 < beta <= PI / 2 -> s_x0 bx <= r1 * cos beta -> s_y0 bx <= - (r2 * sin beta) -> r2 * sin beta <= s_y1 bx -> gcounts bx (slab beta) (polar beta).
Proof.
  intros Hb Q1 Q2 Q3. assert (S := s_pos beta Hb). assert (Hk : cos beta / sin beta * sin beta = cos beta) by (field; lra). set (k := cos beta / sin beta) in *.
  assert (R0 : 0 <= r2) by (assert (A := Hrho z0 ltac:(lra)); lra). assert (RS : 0 <= r2 * sin beta) by (apply Rmult_le_pos; lra).
  assert (U0 : UC Rs Rs (fun y => y)) by (apply UC_LL, LL_id). assert (Un : UC Rs Rs (fun y => - y)) by (now apply UC_opp).
  assert (D : forall p, piece beta k pz py px false false p -> ~ piece beta k pz (fun p => - py p) px true false p).
  { intros [[x y] z]. unfold Refine9.piece, sec, pz, py, px. cbn [fst snd]. intros (_ & ((Y & _) & _) & _) (_ & _ & Y' & _). specialize (Y' eq_refl). lra. }
  assert (C := gcounts_union bx _ _ (fun p => piece beta k pz py px false false p \/ piece beta k pz (fun p => - py p) px true false p) _ _ (piece_dec z0 z1 r1 rho beta k pz py px false false) (fun p => iff_refl _) D (piece1 beta k Hk Hb Q1 ltac:(lra) Q3) (piece3 beta k Hk Hb Q1 ltac:(lra) Q2)).
  refine (gcounts_ext bx _ _ _ _ _ _ C); clear C.
  - intros [[x y] z]. unfold Refine9.piece, Refine9.slab, pz, py, px. cbn [fst snd]. unfold in_sector. split.
    + intros [(Z & C & _)|(Z & C & _)]; (split; [exact Z|]); apply (sec_iff beta k Hk Hb) in C; try (assert (A := Hrho z Z); lra); destruct C as (r & q & C1 & C2 & C3 & C4).
      * exists r, q. split; [exact C1|]. split; [lra|]. now split.
      * exists r, (- q). split; [exact C1|]. split; [lra|]. rewrite cos_neg, sin_neg. split; [exact C3|]. lra.
    + intros (Z & r & q & C1 & C2 & C3 & C4). assert (A := Hrho z Z). destruct (Rle_dec y 0) as [Y|Y].
      * destruct (Req_dec y 0) as [Y0|Y0].
        -- left. split; [exact Z|]. split; [|split; discriminate]. apply (sec_iff beta k Hk Hb); [lra|]. destruct (Rle_dec 0 q) as [G|G].
           ++ exists r, q. split; [exact C1|]. split; [lra|]. now split.
           ++ exists r, (- q). split; [exact C1|]. split; [lra|]. rewrite cos_neg, sin_neg. split; [exact C3|]. lra.
        -- right. split; [exact Z|]. split; [|split; [intros _; lra|discriminate]]. apply (sec_iff beta k Hk Hb); [lra|]. exists r, (- q). split; [exact C1|]. rewrite cos_neg, sin_neg. split; [|split; [exact C3|lra]].
           split; [|lra]. apply Rnot_lt_le. intros G. assert (HPI := PI_RGT_0). assert (0 <= sin q) by (apply sin_ge_0; lra). assert (0 <= r * sin q) by (apply Rmult_le_pos; lra). lra.
      * left. split; [exact Z|]. split; [|split; discriminate]. apply (sec_iff beta k Hk Hb); [lra|]. exists r, q. split; [exact C1|]. split; [|now split].
        split; [|lra]. apply Rnot_lt_le. intros G. assert (HPI := PI_RGT_0). assert (0 <= sin (- q)) by (apply sin_ge_0; lra). rewrite sin_neg in H. assert (0 <= r * - sin q) by (apply Rmult_le_pos; lra). lra.
  - intros g UG. cbv beta. unfold Refine9.polar. apply (polar_split g); [|lra|exact (U_fan g _ beta UG U0)|exact (U_fan g _ beta UG Un)]. intros z _. exact (whole2 (fun t => ray g (z, t)) beta (U_line g z _ UG U0)).
Qed.
Lemma U_arc g a b : UC V3 Rs g -> UC Rs Rs (fun z => RInt (fun t => ray g (z, t)) a b).
Proof. intros G. exact (UC_row (ray g) a b (U_ray g G)). Qed.
Theorem gcounts_large beta : PI / 2 < beta <= PI -> s_x0 bx <= r2 * cos beta -> s_y0 bx <= - r2 -> r2 <= s_y1 bx -> gcounts bx (slab beta) (polar beta).
Proof.
  intros Hb Q1 Q2 Q3. assert (HPI := PI_RGT_0). set (b' := beta - PI / 2). assert (Hb' : 0 < b' <= PI / 2) by (unfold b'; lra). assert (S := s_pos b' Hb'). assert (Hk : cos b' / sin b' * sin b' = cos b') by (field; lra). set (k := cos b' / sin b') in *.
  assert (R0 : 0 <= r2) by (assert (A := Hrho z0 ltac:(lra)); lra). assert (CB : cos beta = - sin b') by (unfold b'; rewrite sin_minus, sin_PI2, cos_PI2; ring). rewrite CB in Q1.
  assert (RS : 0 <= r2 * sin b') by (apply Rmult_le_pos; lra). assert (C0 : 0 <= cos b') by (apply cos_ge_0; lra). assert (RC : 0 <= r1 * cos b') by (now apply Rmult_le_pos).
  assert (C1 : gcounts bx (slab (PI / 2)) (polar (PI / 2))) by (apply gcounts_small; rewrite ?cos_PI2, ?sin_PI2; lra).
  assert (C2 := piece2 b' k Hk Hb' ltac:(lra) ltac:(lra) ltac:(lra) ltac:(lra)). assert (C4 := piece4 b' k Hk Hb' ltac:(lra) ltac:(lra) ltac:(lra) ltac:(lra) ltac:(lra)).
  assert (XP : forall x y z, slab (PI / 2) (x, y, z) -> 0 <= x). { intros x y z (Z & r & q & K1 & K2 & -> & _). assert (A := Hrho z Z). apply Rmult_le_pos; [lra|apply cos_ge_0; lra]. }
  assert (D2 : forall p, piece b' k pz (fun p => - px p) py true false p -> ~ slab (PI / 2) p). { intros [[x y] z] (_ & _ & X & _) G. specialize (X eq_refl). unfold px in X. cbn in X. apply XP in G. lra. }
  assert (C12 := gcounts_union bx _ _ (fun p => piece b' k pz (fun p => - px p) py true false p \/ slab (PI / 2) p) _ _ (piece_dec z0 z1 r1 rho b' k pz (fun p => - px p) py true false) (fun p => iff_refl _) D2 C2 C1).
  assert (D4 : forall p, piece b' k pz (fun p => - px p) (fun p => - py p) true true p -> ~ (piece b' k pz (fun p => - px p) py true false p \/ slab (PI / 2) p)).
  { intros [[x y] z] (_ & _ & X & Y) [G|G]; specialize (X eq_refl); specialize (Y eq_refl); unfold px, py in X, Y; cbn in X, Y.
    - destruct G as (_ & ((V & _) & (W & _)) & _). unfold px, py in V, W. cbn in V, W. assert (I := inner_ge0 b' k Hk Hb' r1 (- x) V). lra.
    - apply XP in G. lra. }
  assert (C := gcounts_union bx _ _ (fun p => piece b' k pz (fun p => - px p) (fun p => - py p) true true p \/ (piece b' k pz (fun p => - px p) py true false p \/ slab (PI / 2) p)) _ _ (piece_dec z0 z1 r1 rho b' k pz (fun p => - px p) (fun p => - py p) true true) (fun p => iff_refl _) D4 C4 C12).
  refine (gcounts_ext bx _ _ _ _ _ _ C); clear C C1 C2 C4 C12.
  - intros [[x y] z]. unfold Refine9.piece, pz, py, px. cbn [fst snd]. unfold Refine9.slab, in_sector. split.
    + intros [(Z & K & _)|[(Z & K & _)|(Z & r & q & K1 & K2 & K3)]]; [| |split; [exact Z|]; exists r, q; split; [exact K1|]; split; [lra|exact K3]]; (split; [exact Z|]); apply (sec_iff b' k Hk Hb') in K; try (assert (A := Hrho z Z); lra); destruct K as (r & q & K1 & K2 & K3 & K4).
      * exists r, (- q - PI / 2). split; [exact K1|]. unfold b' in K2. split; [lra|]. rewrite cos_minus, sin_minus, cos_neg, sin_neg, cos_PI2, sin_PI2. split; [replace x with (- - x) by ring; rewrite K4; ring|replace y with (- - y) by ring; rewrite K3; ring].
      * exists r, (q + PI / 2). split; [exact K1|]. unfold b' in K2. split; [lra|]. rewrite cos_plus, sin_plus, cos_PI2, sin_PI2. split; [replace x with (- - x) by ring; rewrite K4; ring|rewrite K3; ring].
    + intros (Z & r & q & K1 & K2 & K3 & K4). assert (A := Hrho z Z). destruct (Req_dec r 0) as [R|R].
      { right. right. split; [exact Z|]. exists r, 0. split; [exact K1|]. split; [lra|]. rewrite K3, K4, R. split; ring. }
      destruct (Rlt_dec (PI / 2) q) as [G|G]; [|destruct (Rlt_dec q (- (PI / 2))) as [G'|G']].
      * right. left. split; [exact Z|]. assert (Sq : sin (q - PI / 2) = - cos q) by (rewrite sin_minus, sin_PI2, cos_PI2; ring). assert (Cq : cos (q - PI / 2) = sin q) by (rewrite cos_minus, sin_PI2, cos_PI2; ring).
        split; [|split; [intros _|discriminate]].
        -- apply (sec_iff b' k Hk Hb'); [lra|]. exists r, (q - PI / 2). split; [exact K1|]. unfold b'. split; [lra|]. rewrite Sq, Cq, K3, K4. split; ring.
        -- assert (P : 0 < sin (q - PI / 2)) by (apply sin_gt_0; lra). rewrite Sq in P. assert (0 < r * - cos q) by (apply Rmult_lt_0_compat; lra). lra.
      * set (t := - q - PI / 2). assert (Ht : 0 < t <= b') by (unfold t, b'; lra). assert (Sq : sin t = - cos q) by (unfold t; rewrite sin_minus, sin_neg, cos_neg, sin_PI2, cos_PI2; ring). assert (Cq : cos t = - sin q) by (unfold t; rewrite cos_minus, sin_neg, cos_neg, sin_PI2, cos_PI2; ring).
        assert (P : 0 < sin t) by (apply sin_gt_0; lra). assert (PX : 0 < - x) by (rewrite K3; replace (- (r * cos q)) with (r * sin t) by (rewrite Sq; ring); apply Rmult_lt_0_compat; lra).
        assert (PC : 0 <= cos t) by (apply cos_ge_0; lra).
        destruct (Req_dec y 0) as [Y|Y].
        -- right. left. split; [exact Z|]. split; [|split; [intros _; exact PX|discriminate]]. apply (sec_iff b' k Hk Hb'); [lra|]. exists r, t. split; [exact K1|]. split; [lra|]. split; [|rewrite K3, Sq; ring]. rewrite Cq. replace (r * - sin q) with (- y) by (rewrite K4; ring). lra.
        -- left. split; [exact Z|]. split; [|split; [intros _; exact PX|intros _]].
           ++ apply (sec_iff b' k Hk Hb'); [lra|]. exists r, t. split; [exact K1|]. split; [lra|]. rewrite Sq, Cq, K3, K4. split; ring.
           ++ assert (0 <= - y) by (rewrite K4; replace (- (r * sin q)) with (r * cos t) by (rewrite Cq; ring); apply Rmult_le_pos; lra). lra.
      * right. right. split; [exact Z|]. exists r, q. split; [exact K1|]. split; [lra|]. now split.
  - intros g UG. cbv beta. assert (U0 : UC Rs Rs (fun y => y)) by (apply UC_LL, LL_id). assert (Ua : UC Rs Rs (fun y => PI / 2 + y)) by (apply UC_add; [apply UC_cst|exact U0]). assert (Um : UC Rs Rs (fun y => - (PI / 2) - y)) by (apply UC_sub; [apply UC_cst|exact U0]).
    assert (PS := polar_split g z0 z1 (fun z => RInt (fun t => ray g (z, PI / 2 + t)) 0 b') (fun z => RInt (fun t => ray g (z, t)) (- (PI / 2)) (PI / 2)) (fun z => RInt (fun t => ray g (z, PI / 2 + t)) 0 b' + RInt (fun t => ray g (z, t)) (- (PI / 2)) (PI / 2)) (fun z _ => eq_refl) ltac:(lra) (U_fan g _ b' UG Ua) (U_arc g _ _ UG)).
    refine (eq_trans (f_equal (Rplus (RInt (fun z => RInt (fun t => ray g (z, - (PI / 2) - t)) 0 b') z0 z1)) PS) _). unfold Refine9.polar.
    apply (polar_split g); [|lra|exact (U_fan g _ b' UG Um)|apply UC_add; [exact (U_fan g _ b' UG Ua)|exact (U_arc g _ _ UG)]]. intros z _. exact (whole4 (fun t => ray g (z, t)) beta (U_line g z _ UG U0)).
Qed.
End Box.
End Pieces.
