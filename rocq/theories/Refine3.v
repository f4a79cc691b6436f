(* Families of point-mass arrays that tend to mass distributions: moved, joined, in pairs; moments. *)
From Coq Require Import Reals Lra Lia List ZArith.
From Coquelicot Require Import Coquelicot.
From Verif Require Import Glib GlibSpec GlibProofs GlibProofs2 LipInt BodyInt SolidSpec VInt NewtonSpec Newton ShapeSpec BodySpec BodyPair Props_Body Addition Sums Irreg Irreg2 Pg2MultiProofs Refine2.
From Verif Require Import Cplx.
From Verif Require Import Refine.
Import ListNotations.
Open Scope R_scope.

(* ---- complex-valued functions ---- *)
Definition CLL (X : pspace) (f : X -> C) : Prop := LL X Rs (fun x => Re (f x)) /\ LL X Rs (fun x => Im (f x)).
Lemma CLL_const (X : pspace) (c : C) : CLL X (fun _ => c). Proof. split; apply (LLc X). Qed.
Lemma CLL_real (X : pspace) (f : X -> R) : LL X Rs f -> CLL X (fun x => RtoC (f x)). Proof. intros H. split; cbn; [exact H|apply (LLc X)]. Qed.
Lemma CLL_plus (X : pspace) (f g : X -> C) : CLL X f -> CLL X g -> CLL X (fun x => f x + g x)%C.
Proof. intros [A B] [A' B']. split; cbn; [exact (LL_plus X _ _ A A')|exact (LL_plus X _ _ B B')]. Qed.
Lemma CLL_mult (X : pspace) (f g : X -> C) : CLL X f -> CLL X g -> CLL X (fun x => f x * g x)%C.
Proof.
  intros [A B] [A' B']. split; cbn; [exact (LL_minus X _ _ (LL_mult X _ _ A A') (LL_mult X _ _ B B'))|exact (LL_plus X _ _ (LL_mult X _ _ A B') (LL_mult X _ _ B A'))].
Qed.
Lemma CLL_pow (X : pspace) (f : X -> C) n : CLL X f -> CLL X (fun x => cpow (f x) n).
Proof. intros H. induction n as [|n IH]; [exact (CLL_const X (RtoC 1))|]. cbn [cpow]. now apply (CLL_mult X f (fun x => cpow (f x) n)). Qed.
Lemma CLL_nsum (X : pspace) n (f : nat -> X -> C) : (forall i, CLL X (f i)) -> CLL X (fun x => nsum n (fun i => f i x)).
Proof. intros H. induction n as [|n IH]; [exact (CLL_const X (RtoC 0))|]. cbn [nsum]. now apply (CLL_plus X (fun x => nsum n (fun i => f i x)) (f n)). Qed.
Lemma CLL_dp (X : pspace) (f : X -> C) n : CLL X f -> CLL X (fun x => dp (f x) n).
Proof. intros H. unfold dp. destruct (n <? 0)%Z; [exact (CLL_const X (RtoC 0))|]. apply (CLL_mult X (fun x => cpow (f x) (Z.to_nat n)) (fun _ => (/ RtoC (zfact n))%C)); [now apply CLL_pow|apply CLL_const]. Qed.
Lemma CLL_rsolid l m : CLL V3 (fun v : vec => rsolid l m v).
Proof.
  assert (E : forall v : vec, (RtoC (nrm l m) * tri l m (- (RtoC (fst (fst v)) - Ci * RtoC (snd (fst v))) / RtoC 2) (RtoC (snd v)) ((RtoC (fst (fst v)) + Ci * RtoC (snd (fst v))) / RtoC 2))%C = rsolid l m v) by (intros [[x y] z]; reflexivity).
  assert (K : CLL V3 (fun v : vec => (RtoC (nrm l m) * tri l m (- (RtoC (fst (fst v)) - Ci * RtoC (snd (fst v))) / RtoC 2) (RtoC (snd v)) ((RtoC (fst (fst v)) + Ci * RtoC (snd (fst v))) / RtoC 2))%C)).
  { apply (CLL_mult V3 (fun _ => RtoC (nrm l m))); [apply CLL_const|]. unfold tri, zsum.
    assert (KA : CLL V3 (fun v : vec => (- (RtoC (fst (fst v)) - Ci * RtoC (snd (fst v))) / RtoC 2)%C)).
    { split; [apply (LL_ext V3 Rs (fun v : vec => - fst (fst v) * / 2))|apply (LL_ext V3 Rs (fun v : vec => snd (fst v) * / 2))]; try (intros v; cbn; field); ll. }
    assert (KB : CLL V3 (fun v : vec => ((RtoC (fst (fst v)) + Ci * RtoC (snd (fst v))) / RtoC 2)%C)).
    { split; [apply (LL_ext V3 Rs (fun v : vec => fst (fst v) * / 2))|apply (LL_ext V3 Rs (fun v : vec => snd (fst v) * / 2))]; try (intros v; cbn; field); ll. }
    assert (KZ : CLL V3 (fun v : vec => RtoC (snd v))) by (apply CLL_real; ll).
    apply (CLL_nsum V3 (Z.to_nat (l + 1 - 0)) (fun i v => (dp (RtoC (snd v)) (l - m - 2 * (0 + Z.of_nat i)) * dp (- (RtoC (fst (fst v)) - Ci * RtoC (snd (fst v))) / RtoC 2) (m + (0 + Z.of_nat i)) * dp ((RtoC (fst (fst v)) + Ci * RtoC (snd (fst v))) / RtoC 2) (0 + Z.of_nat i))%C)).
    intros i. repeat apply (CLL_mult V3); now apply CLL_dp. }
  destruct K as [K1 K2]. split; [eapply (LL_ext V3 Rs); [|exact K1]|eapply (LL_ext V3 Rs); [|exact K2]]; intros v; cbv beta; now rewrite E.
Qed.

(* ---- moments ---- *)
Lemma tends_real fam D r (g : vec -> R) : tends fam D r -> LL V3 Rs g -> exists I, D (fun a b c => RtoC (g (a, b, c))) (RtoC I) /\
  forall eps, 0 < eps -> exists N, forall n pts, (N <= n)%nat -> fam n pts -> Rabs (lsr (fun p => pm p * g (pp p)) pts - I) <= eps.
Proof.
  intros (_ & _ & T) Hg. destruct (T Rs (fun p => g (snd p))) as (G & _ & D1 & L). { apply UC_LL. exact (LL_comp (pprod Rs V3) V3 Rs snd g (LL_snd Rs V3) Hg). }
  exists (G 0). split; [exact (D1 0)|]. intros eps He. destruct (L 0 eps He) as (N & Q). exists N. intros n pts Hn HF. apply (Q n pts 0 Hn HF). cbn. rewrite Rabs_R0. lra.
Qed.
Lemma tends_complex fam D r (f : vec -> C) I : regular D -> tends fam D r -> CLL V3 f -> D (fun a b c => f (a, b, c)) I ->
  forall eps, 0 < eps -> exists N, forall n pts, (N <= n)%nat -> fam n pts -> Cmod (lsum (fun p => (RtoC (pm p) * f (pp p))%C) pts - I)%C < eps.
Proof.
  intros RD T [H1 H2] HI eps He. destruct (tends_real fam D r _ T H1) as (I1 & D1 & L1). destruct (tends_real fam D r _ T H2) as (I2 & D2 & L2).
  assert (E : I = (RtoC I1 + Ci * RtoC I2)%C).
  { apply (reg_unique _ RD (fun a b c => f (a, b, c))); [exact HI|]. eapply (reg_ext _ RD); [|exact (reg_plus _ RD _ _ _ _ D1 (reg_scal _ RD Ci _ _ D2))]. intros x y z. cbv beta. destruct (f (x, y, z)) as [u v]. apply injective_projections; cbn; ring. }
  destruct (L1 (eps / 3) ltac:(lra)) as (N1 & Q1). destruct (L2 (eps / 3) ltac:(lra)) as (N2 & Q2). exists (N1 + N2)%nat. intros n pts Hn HF. specialize (Q1 n pts ltac:(lia) HF). specialize (Q2 n pts ltac:(lia) HF).
  assert (S : lsum (fun p => (RtoC (pm p) * f (pp p))%C) pts = (RtoC (lsr (fun p => (pm p * Re (f (pp p)))%R) pts) + Ci * RtoC (lsr (fun p => (pm p * Im (f (pp p)))%R) pts))%C).
  { clear. induction pts as [|p l IH]; [apply injective_projections; cbn; ring|]. unfold lsum, lsr in *. cbn [fold_right]. rewrite IH. destruct (f (pp p)) as [u v]. apply injective_projections; cbn; ring. }
  rewrite S, E. eapply Rle_lt_trans; [apply mod_le|]. set (u := lsr _ _) in *. set (v := lsr _ _) in Q2 |- *. cbn.
  replace (u + (0 * v - 1 * 0) + - (I1 + (0 * I2 - 1 * 0))) with (u - I1) by ring. replace (0 + (0 * 0 + 1 * v) + - (0 + (0 * 0 + 1 * I2))) with (v - I2) by ring. lra.
Qed.

(* ---- moved arrays ---- *)
Definition moved (M : vec -> vec) (pts : list pt) : list pt := map (fun p => mkpt (pm p) (M (pp p))) pts.
Lemma tends_mapped fam D r M r' : regular D -> tends fam D r -> LL V3 V3 M -> (forall v, vnorm v <= r -> vnorm (M v) <= r') -> tends (fun n q => exists pts, fam n pts /\ q = moved M pts) (mapped M D) r'.
Proof.
  intros RD ((M0 & HM0 & B) & R & T) HM Hr. split; [|split].
  - exists M0. split; [exact HM0|]. intros n q (pts & HF & ->). unfold moved. rewrite lsr_map. exact (B n pts HF).
  - intros n q p (pts & HF & ->) Hp. unfold moved in Hp. apply in_map_iff in Hp. destruct Hp as (p0 & <- & Hp0). cbn [pp]. apply Hr. exact (R n pts p0 HF Hp0).
  - intros X F UF. destruct (T X (fun p => F (fst p, M (snd p)))) as (G & UG & DG & L).
    { apply (UC_comp (pprod X V3) (pprod X V3) Rs (fun p => (fst p, M (snd p))) F); [|exact UF]. apply UC_LL, (LL_pair (pprod X V3) X V3 fst (fun p => M (snd p))); [apply (LL_fst X V3)|]. exact (LL_comp (pprod X V3) V3 V3 snd M (LL_snd X V3) HM). }
    exists G. split; [exact UG|]. split.
    + intros x. unfold mapped. eapply (reg_ext _ RD); [|exact (DG x)]. intros a b c. cbv beta. cbn [fst snd]. destruct (M (a, b, c)) as [[a' b'] c']. reflexivity.
    + intros A eps He. destruct (L A eps He) as (N & Q). exists N. intros n q x Hn (pts & HF & ->) Hx. unfold moved. rewrite lsr_map. exact (Q n pts x Hn HF Hx).
Qed.
Lemma tends_joined fam1 D1 fam2 D2 r : tends fam1 D1 r -> tends fam2 D2 r -> tends (fun n q => exists p1 p2, fam1 n p1 /\ fam2 n p2 /\ q = p1 ++ p2) (together D1 D2) r.
Proof.
  intros ((M1 & HM1 & B1) & R1 & T1) ((M2 & HM2 & B2) & R2 & T2). split; [|split].
  - exists (M1 + M2). split; [lra|]. intros n q (p1 & p2 & H1 & H2 & ->). rewrite lsr_app. assert (Q1 := B1 n p1 H1). assert (Q2 := B2 n p2 H2). lra.
  - intros n q p (p1 & p2 & H1 & H2 & ->) Hp. apply in_app_or in Hp. destruct Hp as [Hp|Hp]; [exact (R1 n p1 p H1 Hp)|exact (R2 n p2 p H2 Hp)].
  - intros X F UF. destruct (T1 X F UF) as (G1 & UG1 & DG1 & L1). destruct (T2 X F UF) as (G2 & UG2 & DG2 & L2). exists (fun x => G1 x + G2 x). split; [|split].
    + apply (UC_comp X P2 Rs (fun x => (G1 x, G2 x)) (fun p => fst p + snd p)); [now apply (UC_pair X Rs Rs)|]. apply UC_LL. apply (LL_plus P2 fst snd); [apply (LL_fst Rs Rs)|apply (LL_snd Rs Rs)].
    + intros x. exists (RtoC (G1 x)), (RtoC (G2 x)). split; [apply DG1|]. split; [apply DG2|]. now rewrite RtoC_plus.
    + intros A eps He. destruct (L1 A (eps / 2) ltac:(lra)) as (N1 & Q1). destruct (L2 A (eps / 2) ltac:(lra)) as (N2 & Q2). exists (N1 + N2)%nat. intros n q x Hn (p1 & p2 & H1 & H2 & ->) Hx.
      rewrite lsr_app. specialize (Q1 n p1 x ltac:(lia) H1 Hx). specialize (Q2 n p2 x ltac:(lia) H2 Hx). set (u := lsr _ p1) in *. set (v := lsr _ p2) in *. replace (u + v - (G1 x + G2 x)) with ((u - G1 x) + (v - G2 x)) by ring. eapply Rle_trans; [apply Rabs_triang|lra].
Qed.
Lemma tends_points P r : (forall p, In p P -> vnorm (pp p) <= r) -> tends (fun _ q => q = P) (point_masses P) r.
Proof.
  intros H. split; [|split].
  - exists (lsr (fun p => Rabs (pm p)) P). split; [clear; unfold lsr; induction P as [|p l IH]; cbn; [lra|assert (Q := Rabs_pos (pm p)); lra]|]. intros n q ->. lra.
  - intros n q p -> Hp. now apply H.
  - intros X F UF. exists (fun x => lsr (fun p => pm p * F (x, pp p)) P). split; [|split].
    + clear H. induction P as [|p l IH]; [apply UC_LL; exact (LL_const X 0)|].
      apply (UC_comp X P2 Rs (fun x => (pm p * F (x, pp p), lsr (fun p => pm p * F (x, pp p)) l)) (fun p => fst p + snd p)); [|apply UC_LL; apply (LL_plus P2 fst snd); [apply (LL_fst Rs Rs)|apply (LL_snd Rs Rs)]].
      apply (UC_pair X Rs Rs (fun x => pm p * F (x, pp p)) (fun x => lsr (fun p => pm p * F (x, pp p)) l)); [|exact IH]. apply (UC_scal X (fun x => F (x, pp p))).
      apply (UC_comp X (pprod X V3) Rs (fun x => (x, pp p)) F); [|exact UF]. apply UC_LL, (LL_pair X X V3 (fun x => x) (fun _ => pp p)); [apply LL_id|apply (LL_cst3 X)].
    + intros x. unfold point_masses. rewrite <- lsum_RtoC. unfold lsum. clear. induction P as [|[m [[a b] c]] l IH]; [reflexivity|]. cbn [fold_right pm pp]. rewrite IH. now rewrite RtoC_mult.
    + intros A eps He. exists O. intros n q x _ -> _. rewrite Rminus_diag_eq, Rabs_R0 by reflexivity. lra.
Qed.
Lemma tends_weaken fam D r r' : r <= r' -> tends fam D r -> tends fam D r'.
Proof. intros H (A & B & T). split; [exact A|]. split; [|exact T]. intros n pts p HF Hp. apply Rle_trans with r; [exact (B n pts p HF Hp)|exact H]. Qed.

(* ---- pairs ---- *)
Lemma sn_vnorm (v : vec) r : vnorm v <= r -> sn V3 v <= 3 * r.
Proof.
  destruct v as [[x y] z]. rewrite vnorm_xyz. cbn -[pow]. intros H.
  assert (K : forall a, a ^ 2 <= x ^ 2 + y ^ 2 + z ^ 2 -> Rabs a <= r). { intros a Ha. rewrite <- sqrt_Rsqr_abs. eapply Rle_trans; [|exact H]. apply sqrt_le_1_alt. unfold Rsqr. lra. }
  assert (Q1 := pow2_ge_0 x). assert (Q2 := pow2_ge_0 y). assert (Q3 := pow2_ge_0 z). assert (K1 := K x ltac:(lra)). assert (K2 := K y ltac:(lra)). assert (K3 := K z ltac:(lra)). lra.
Qed.
Theorem pair_tends fam1 D1 r1 fam2 D2 r2 (k : vec -> vec -> R) (F : vec * vec -> R) : tends fam1 D1 r1 -> tends fam2 D2 r2 -> UC (pprod V3 V3) Rs F ->
  (forall v w, vnorm v <= r1 -> vnorm w <= r2 -> F (v, w) = k v w) ->
  exists J, pair_integral D1 r1 D2 r2 k J /\
  forall eps, 0 < eps -> exists N, forall n m pts qts, (N <= n)%nat -> (N <= m)%nat -> fam1 n pts -> fam2 m qts -> Rabs (lsr (fun p => lsr (fun s => pm p * pm s * k (pp p) (pp s)) qts) pts - J) <= eps.
Proof.
  intros ((M1 & HM1 & B1) & R1 & T1) (_ & R2 & T2) LF E. destruct (T2 V3 F LF) as (G & UG & DG & L2).
  destruct (T1 Rs (fun p => G (snd p))) as (H & _ & DH & L1). { exact (UC_comp (pprod Rs V3) V3 Rs snd G (UC_LL _ _ _ (LL_snd Rs V3)) UG). }
  exists (H 0). split. { exists (fun v w => F (v, w)), G. split; [exact E|]. split; [exact DG|exact (DH 0)]. }
  intros eps He. destruct (L1 0 (eps / 2) ltac:(lra)) as (N1 & Q1). destruct (L2 (3 * r1) (eps / (2 * (M1 + 1)))) as (N2 & Q2). { apply Rdiv_lt_0_compat; lra. }
  exists (N1 + N2)%nat. intros n m pts qts Hn Hm F1 F2. specialize (Q1 n pts 0 ltac:(lia) F1 ltac:(cbn; rewrite Rabs_R0; lra)). cbn [snd] in Q1.
  replace eps with (eps / 2 + eps / 2) by lra. apply (via _ (lsr (fun p => pm p * G (pp p)) pts)); [|exact Q1].
  assert (Z : forall l, (forall p, In p l -> In p pts) -> Rabs (lsr (fun p => lsr (fun s => pm p * pm s * k (pp p) (pp s)) qts) l - lsr (fun p => pm p * G (pp p)) l) <= lsr (fun p => Rabs (pm p)) l * (eps / (2 * (M1 + 1)))).
  { induction l as [|p l IH]; intros Hl; [cbn; rewrite Rminus_0_r, Rabs_R0; lra|].
    specialize (IH ltac:(intros; apply Hl; now right)). assert (Hp := R1 n pts p F1 (Hl p ltac:(now left))). specialize (Q2 m qts (pp p) ltac:(lia) F2 (sn_vnorm _ _ Hp)).
    assert (E1 : lsr (fun s => pm p * pm s * k (pp p) (pp s)) qts = pm p * lsr (fun s => pm s * F (pp p, pp s)) qts). { rewrite <- Newton.lsr_scal. apply Newton.lsr_ext. intros s Hs. rewrite E; [ring|exact Hp|exact (R2 m qts s F2 Hs)]. }
    cbn [lsr fold_right]. fold (lsr (fun p => lsr (fun s => pm p * pm s * k (pp p) (pp s)) qts) l) (lsr (fun p => pm p * G (pp p)) l) (lsr (fun p => Rabs (pm p)) l) (lsr (fun s => pm p * pm s * k (pp p) (pp s)) qts). rewrite E1.
    set (a := lsr _ qts) in *. set (b := lsr _ l) in *. set (c := lsr (fun p => pm p * G (pp p)) l) in *. set (d := lsr (fun p => Rabs (pm p)) l) in *.
    replace (pm p * a + b - (pm p * G (pp p) + c)) with (pm p * (a - G (pp p)) + (b - c)) by ring. eapply Rle_trans; [apply Rabs_triang|]. rewrite Rabs_mult, Rmult_plus_distr_r. apply Rplus_le_compat; [|exact IH]. apply Rmult_le_compat_l; [apply Rabs_pos|exact Q2]. }
  eapply Rle_trans; [apply Z; auto|]. assert (B := B1 n pts F1). apply Rle_trans with ((M1 + 1) * (eps / (2 * (M1 + 1)))); [|right; field; lra]. apply Rmult_le_compat_r; [left; apply Rdiv_lt_0_compat; lra|lra].
Qed.
