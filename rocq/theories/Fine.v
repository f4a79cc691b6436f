(* Towards C78: the error of the midpoint rule for Lipschitz functions, and the array of a brick. *)
From Coq Require Import Reals Lra Lia List ZArith.
From Coquelicot Require Import Coquelicot.
From Verif Require Import Glib GlibSpec GlibProofs NewtonSpec Newton MomentSpec Pg2MultiProofs Addition SolidSpec ShapeSpec QlmProofs QlmProofs3 VInt LipInt BodyInt BodySpec GlibShapes PointSpec Props_GlibShapes Refine2.
From Verif Require Import Cplx.
From Verif Require Import Refine.
Import ListNotations.
Open Scope R_scope.

Definition lip1 (K : R) (g : R -> R) : Prop := forall s t, Rabs (g s - g t) <= K * Rabs (s - t).
Lemma lip1_cont K g : lip1 K g -> forall t, continuous g t.
Proof.
  intros H t. apply (UC_continuous Rs (fun p : R * R => g (snd p)) 0 t). apply UC_LL.
  apply (LL_comp (pprod Rs Rs) Rs Rs snd g); [apply (LL_snd Rs Rs)|]. apply (LL_glob g (Rabs K)); [apply Rabs_pos|].
  intros x y. eapply Rle_trans; [apply H|]. apply Rmult_le_compat_r; [apply Rabs_pos|apply Rle_abs].
Qed.
Lemma lip1_int K g a b : lip1 K g -> ex_RInt g a b.
Proof. intros H. apply (ex_RInt_continuous (V := R_CompleteNormedModule)). intros t _. exact (lip1_cont K g H t). Qed.
Lemma int_le a b (f g : R -> R) : a <= b -> ex_RInt f a b -> ex_RInt g a b -> (forall t, a < t < b -> Rabs (f t) <= g t) -> Rabs (RInt f a b) <= RInt g a b.
Proof.
  intros Hab Hf Hg H. assert (L : RInt f a b <= RInt g a b). { apply RInt_le; auto. intros t Ht. eapply Rle_trans; [apply Rle_abs|now apply H]. }
  assert (U : RInt (fun t => - g t) a b <= RInt f a b). { apply RInt_le; auto. - exact (ex_RInt_opp (V := R_NormedModule) g a b Hg). - intros t Ht. specialize (H t Ht). apply Rabs_le_between in H. lra. }
  assert (E : RInt (fun t => - g t) a b = - RInt g a b) by exact (RInt_opp (V := R_CompleteNormedModule) g a b Hg). rewrite E in U.
  apply Rabs_le. lra.
Qed.
(* one half of a cell *)
Lemma half_cell K g m h : 0 <= h -> 0 <= K -> lip1 K g -> Rabs (RInt g m (m + h) - h * g m) <= K * h ^ 2 / 2.
Proof.
  intros Hh HK Hg. assert (Ig := lip1_int K g m (m + h) Hg).
  assert (E : RInt g m (m + h) - h * g m = RInt (fun t => g t - g m) m (m + h)).
  { symmetry. apply (is_RInt_unique (V := R_CompleteNormedModule)). 
    assert (A := is_RInt_minus (V := R_NormedModule) g (fun _ => g m) m (m + h) _ _ (RInt_correct (V := R_CompleteNormedModule) g _ _ Ig) (is_RInt_const (V := R_NormedModule) m (m + h) (g m))).
    unfold scal in A; cbn in A; unfold mult in A; cbn in A. replace (m + h - m) with h in A by ring. exact A. }
  rewrite E. clear E. assert (F : is_RInt (fun t => K * (t - m)) m (m + h) (K * h ^ 2 / 2)).
  { replace (K * h ^ 2 / 2) with (K * (m + h - m) ^ 2 / 2 - K * (m - m) ^ 2 / 2) by field.
    apply (is_RInt_derive (V := R_CompleteNormedModule) (fun t => K * (t - m) ^ 2 / 2) (fun t => K * (t - m))).
    - intros t _. auto_derive; [trivial|]. field.
    - intros t _. apply (ex_derive_continuous (K := R_AbsRing) (V := R_NormedModule)). auto_derive. trivial. }
  rewrite <- (is_RInt_unique (V := R_CompleteNormedModule) _ _ _ _ F). apply int_le; [lra| |eexists; exact F|].
  - apply (ex_RInt_minus (V := R_NormedModule) g (fun _ => g m)); [exact Ig|apply ex_RInt_const].
  - intros t Ht. eapply Rle_trans; [apply Hg|]. rewrite Rabs_pos_eq by lra. lra.
Qed.
Lemma half_cell' K g m h : 0 <= h -> 0 <= K -> lip1 K g -> Rabs (RInt g (m - h) m - h * g m) <= K * h ^ 2 / 2.
Proof.
  intros Hh HK Hg. assert (L : lip1 K (fun t => g (- t))). { intros s t. eapply Rle_trans; [apply Hg|]. right. f_equal. rewrite <- Rabs_Ropp. f_equal. ring. }
  assert (A := half_cell K (fun t => g (- t)) (- m) h Hh HK L). cbv beta in A. rewrite Ropp_involutive in A.
  assert (E : RInt (fun t => g (- t)) (- m) (- m + h) = RInt g (m - h) m).
  { apply (is_RInt_unique (V := R_CompleteNormedModule)).
    assert (B := is_RInt_comp_opp (V := R_NormedModule) g (- m) (- m + h) (opp (RInt g (m - h) m))). 
    assert (I : is_RInt g (- - m) (- (- m + h)) (opp (RInt g (m - h) m))). { rewrite Ropp_involutive. replace (- (- m + h)) with (m - h) by ring. apply (is_RInt_swap (V := R_NormedModule)), (RInt_correct (V := R_CompleteNormedModule)), (lip1_int K g _ _ Hg). }
    specialize (B I). apply (is_RInt_opp (V := R_NormedModule)) in B. rewrite opp_opp in B. eapply is_RInt_ext; [|exact B]. intros t _. cbv beta. now rewrite opp_opp. }
  rewrite E in A. exact A.
Qed.
Lemma cell_err K g m h : 0 <= h -> 0 <= K -> lip1 K g -> Rabs (h * g m - RInt g (m - h / 2) (m + h / 2)) <= K * h ^ 2 / 4.
Proof.
  intros Hh HK Hg. assert (A := half_cell K g m (h / 2) ltac:(lra) HK Hg). assert (B := half_cell' K g m (h / 2) ltac:(lra) HK Hg).
  assert (E : RInt g (m - h / 2) (m + h / 2) = RInt g (m - h / 2) m + RInt g m (m + h / 2)).
  { symmetry. apply (RInt_Chasles (V := R_CompleteNormedModule)); apply (lip1_int K g _ _ Hg). }
  rewrite E. set (u := RInt g (m - h / 2) m) in *. set (v := RInt g m (m + h / 2)) in *. clearbody u v. apply Rabs_le_between in A, B. apply Rabs_le. split; nra.
Qed.
Lemma mid_err K g a b n : a < b -> (0 < n)%nat -> 0 <= K -> lip1 K g ->
  Rabs (rs n (fun i => cw a b n * g (mid a b n i)) - RInt g a b) <= K * (b - a) * cw a b n / 4.
Proof.
  intros Hab Hn HK Hg. assert (C := cw_pos a b n Hab Hn).
  assert (E : RInt g a b = rs n (fun i => RInt g (edge a b n i) (edge a b n (Datatypes.S i)))).
  { assert (G : forall k, RInt g (edge a b n 0) (edge a b n k) = rs k (fun i => RInt g (edge a b n i) (edge a b n (Datatypes.S i)))).
    { induction k as [|k IH]; cbn [rs]; [apply (RInt_point (V := R_CompleteNormedModule))|]. rewrite <- IH. symmetry. apply (RInt_Chasles (V := R_CompleteNormedModule)); apply (lip1_int K g _ _ Hg). }
    rewrite <- G, edge_0, (edge_n a b n Hn). reflexivity. }
  rewrite E. eapply Rle_trans; [apply (rs_dist n _ _ (fun _ => K * cw a b n ^ 2 / 4))|].
  - intros i _. assert (A := cell_err K g (mid a b n i) (cw a b n) ltac:(lra) HK Hg). rewrite mid_edge in A |- *. rewrite edge_S. replace (edge a b n i + cw a b n / 2 - cw a b n / 2) with (edge a b n i) in A by ring. replace (edge a b n i + cw a b n / 2 + cw a b n / 2) with (edge a b n i + cw a b n) in A by field. exact A.
  - rewrite rs_const. right. unfold cw. field. apply Rgt_not_eq, lt_0_INR, Hn.
Qed.

(* ---- three dimensions ---- *)
Definition lip3 (K : R) (f : R -> R -> R -> R) : Prop := forall x y z x' y' z', Rabs (f x y z - f x' y' z') <= K * (Rabs (x - x') + Rabs (y - y') + Rabs (z - z')).
Lemma int_dist K K' f g a b e : a <= b -> lip1 K f -> lip1 K' g -> (forall t, a < t < b -> Rabs (f t - g t) <= e) -> Rabs (RInt f a b - RInt g a b) <= (b - a) * e.
Proof.
  intros Hab Hf Hg H. assert (If := lip1_int K f a b Hf). assert (Ig := lip1_int K' g a b Hg).
  assert (E : RInt (fun t => f t - g t) a b = RInt f a b - RInt g a b) by exact (RInt_minus (V := R_CompleteNormedModule) f g a b If Ig). rewrite <- E.
  assert (F := is_RInt_const (V := R_NormedModule) a b e). unfold scal in F; cbn in F; unfold mult in F; cbn in F. rewrite <- (is_RInt_unique (V := R_CompleteNormedModule) _ _ _ _ F).
  apply int_le; [exact Hab|exact (ex_RInt_minus (V := R_NormedModule) f g a b If Ig)|eexists; exact F|exact H].
Qed.
Section Three.
Variables (K : R) (f : R -> R -> R -> R) (a1 b1 a2 b2 a3 b3 : R) (n1 n2 n3 : nat).
Hypotheses (HK : 0 <= K) (Hf : lip3 K f) (H1 : a1 < b1) (H2 : a2 < b2) (H3 : a3 < b3) (N1 : (0 < n1)%nat) (N2 : (0 < n2)%nat) (N3 : (0 < n3)%nat).
Definition in3 (x y : R) : R := RInt (f x y) a3 b3.
Definition in2 (x : R) : R := RInt (in3 x) a2 b2.
Definition in1 : R := RInt in2 a1 b1.
Lemma lip_z x y : lip1 K (f x y).
Proof. intros s t. eapply Rle_trans; [apply Hf|]. rewrite !Rabs_diag. right. ring. Qed.
Lemma in3_dist x y x' y' : Rabs (in3 x y - in3 x' y') <= (b3 - a3) * K * (Rabs (x - x') + Rabs (y - y')).
Proof.
  rewrite Rmult_assoc. apply (int_dist K K); [lra|apply lip_z|apply lip_z|]. intros t _. eapply Rle_trans; [apply Hf|]. rewrite Rabs_diag. right. ring.
Qed.
Lemma lip_y x : lip1 ((b3 - a3) * K) (in3 x).
Proof. intros s t. eapply Rle_trans; [apply in3_dist|]. rewrite Rabs_diag. right. ring. Qed.
Lemma lip_x : lip1 ((b2 - a2) * ((b3 - a3) * K)) in2.
Proof.
  intros s t. rewrite Rmult_assoc. apply (int_dist ((b3 - a3) * K) ((b3 - a3) * K)); [lra|apply lip_y|apply lip_y|]. intros u _. eapply Rle_trans; [apply in3_dist|]. rewrite Rabs_diag. right. ring.
Qed.
Lemma in1_int3 : is_int3 a1 b1 (fun _ => a2) (fun _ => b2) (fun _ _ => a3) (fun _ _ => b3) (fun x y z => RtoC (f x y z)) (RtoC in1).
Proof.
  exists (fun x y => RtoC (in3 x y)), (fun x => RtoC (in2 x)). split; [|split].
  - intros x y. apply CInt_RtoC, (RInt_correct (V := R_CompleteNormedModule)), (lip1_int K), lip_z.
  - intros x. apply CInt_RtoC, (RInt_correct (V := R_CompleteNormedModule)), (lip1_int _ _ _ _ (lip_y x)).
  - apply CInt_RtoC, (RInt_correct (V := R_CompleteNormedModule)), (lip1_int _ _ _ _ lip_x).
Qed.
Lemma grid_err : Rabs (rs n1 (fun i => cw a1 b1 n1 * rs n2 (fun j => cw a2 b2 n2 * rs n3 (fun k => cw a3 b3 n3 * f (mid a1 b1 n1 i) (mid a2 b2 n2 j) (mid a3 b3 n3 k)))) - in1)
  <= K * ((b1 - a1) * (b2 - a2) * (b3 - a3)) * ((cw a1 b1 n1 + cw a2 b2 n2 + cw a3 b3 n3) / 4).
Proof.
  assert (C1 := cw_pos a1 b1 n1 H1 N1). assert (C2 := cw_pos a2 b2 n2 H2 N2). assert (C3 := cw_pos a3 b3 n3 H3 N3).
  assert (Z : forall x y, Rabs (rs n3 (fun k => cw a3 b3 n3 * f x y (mid a3 b3 n3 k)) - in3 x y) <= K * (b3 - a3) * cw a3 b3 n3 / 4) by (intros x y; apply (mid_err K); auto using lip_z).
  assert (PK : 0 <= (b3 - a3) * K) by (apply Rmult_le_pos; lra). assert (PK2 : 0 <= (b2 - a2) * ((b3 - a3) * K)) by (apply Rmult_le_pos; lra).
  assert (Y : forall x, Rabs (rs n2 (fun j => cw a2 b2 n2 * rs n3 (fun k => cw a3 b3 n3 * f x (mid a2 b2 n2 j) (mid a3 b3 n3 k))) - in2 x) <= (b2 - a2) * (K * (b3 - a3) * cw a3 b3 n3 / 4) + (b3 - a3) * K * (b2 - a2) * cw a2 b2 n2 / 4).
  { intros x. apply (via _ (rs n2 (fun j => cw a2 b2 n2 * in3 x (mid a2 b2 n2 j)))).
    - eapply Rle_trans; [apply (rs_dist n2 _ _ (fun _ => cw a2 b2 n2 * (K * (b3 - a3) * cw a3 b3 n3 / 4)))|].
      + intros j _. rewrite <- Rmult_minus_distr_l, Rabs_mult, (Rabs_pos_eq (cw a2 b2 n2)) by lra. apply Rmult_le_compat_l; [lra|apply Z].
      + rewrite rs_const. rewrite <- Rmult_assoc. right. f_equal. unfold cw. field. apply Rgt_not_eq, lt_0_INR, N2.
    - apply (mid_err ((b3 - a3) * K)); auto using lip_y. }
  eapply Rle_trans; [apply (via _ (rs n1 (fun i => cw a1 b1 n1 * in2 (mid a1 b1 n1 i))))|].
  - eapply Rle_trans; [apply (rs_dist n1 _ _ (fun _ => cw a1 b1 n1 * ((b2 - a2) * (K * (b3 - a3) * cw a3 b3 n3 / 4) + (b3 - a3) * K * (b2 - a2) * cw a2 b2 n2 / 4)))|].
    + intros i _. rewrite <- Rmult_minus_distr_l, Rabs_mult, (Rabs_pos_eq (cw a1 b1 n1)) by lra. apply Rmult_le_compat_l; [lra|apply Y].
    + rewrite rs_const, <- Rmult_assoc. right. reflexivity.
  - apply (mid_err ((b2 - a2) * ((b3 - a3) * K))); auto using lip_x.
  - replace (INR n1 * cw a1 b1 n1) with (b1 - a1) by (unfold cw; field; apply Rgt_not_eq, lt_0_INR, N1). right. field.
Qed.
End Three.
Lemma in1_dist K K' f g a1 b1 a2 b2 a3 b3 e : 0 <= K -> 0 <= K' -> lip3 K f -> lip3 K' g -> a1 < b1 -> a2 < b2 -> a3 < b3 ->
  (forall x y z, a1 < x < b1 -> a2 < y < b2 -> a3 < z < b3 -> Rabs (f x y z - g x y z) <= e) ->
  Rabs (in1 f a1 b1 a2 b2 a3 b3 - in1 g a1 b1 a2 b2 a3 b3) <= (b1 - a1) * (b2 - a2) * (b3 - a3) * e.
Proof.
  intros P P' Hf Hg H1 H2 H3 H. rewrite !Rmult_assoc. unfold in1. eapply int_dist; [lra|apply (lip_x K); auto|apply (lip_x K'); auto|]. intros x Hx.
  unfold in2. eapply int_dist; [lra|apply (lip_y K); auto|apply (lip_y K'); auto|]. intros y Hy.
  unfold in3. eapply int_dist; [lra|apply (lip_z K); auto|apply (lip_z K'); auto|]. intros z Hz. now apply H.
Qed.
