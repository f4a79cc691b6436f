(* Locally Lipschitz maps and iterated integrals: the integral over a variable interval of a
   locally Lipschitz function of parameter and variable is a locally Lipschitz function of the parameter. *)
From Coq Require Import Reals Lra Lia.
From Coquelicot Require Import Coquelicot.
From Verif Require Import Glib.
Open Scope R_scope.

(* a set with a distance and a size *)
Record pspace := mkps { car :> Type; sd : car -> car -> R; sn : car -> R;
  sd_ge0 : forall x y, 0 <= sd x y; sn_ge0 : forall x, 0 <= sn x; sd_refl : forall x, sd x x = 0 }.
Lemma Rabs_diag (x : R) : Rabs (x - x) = 0. Proof. replace (x - x) with 0 by ring. apply Rabs_R0. Qed.
Definition Rs : pspace := mkps R (fun x y => Rabs (x - y)) Rabs (fun x y => Rabs_pos _) Rabs_pos Rabs_diag.
Definition pprod (X Y : pspace) : pspace.
Proof.
  refine (mkps (X * Y) (fun a b => sd X (fst a) (fst b) + sd Y (snd a) (snd b)) (fun a => sn X (fst a) + sn Y (snd a)) _ _ _).
  - intros a b. assert (A := sd_ge0 X (fst a) (fst b)). assert (B := sd_ge0 Y (snd a) (snd b)). lra.
  - intros a. assert (A := sn_ge0 X (fst a)). assert (B := sn_ge0 Y (snd a)). lra.
  - intros a. cbn. rewrite !sd_refl. ring.
Defined.
Definition V3 : pspace := pprod (pprod Rs Rs) Rs.
(* Lipschitz and bounded on every set of bounded size *)
Definition LL (X Y : pspace) (h : X -> Y) : Prop := forall A, exists K M, 0 <= K /\ 0 <= M /\
  (forall x, sn X x <= A -> sn Y (h x) <= M) /\ (forall x y, sn X x <= A -> sn X y <= A -> sd Y (h x) (h y) <= K * sd X x y).

Lemma LL_comp (X Y Z : pspace) (f : X -> Y) (g : Y -> Z) : LL X Y f -> LL Y Z g -> LL X Z (fun x => g (f x)).
Proof.
  intros Hf Hg A. destruct (Hf A) as (K1 & M1 & HK1 & HM1 & B1 & L1). destruct (Hg M1) as (K2 & M2 & HK2 & HM2 & B2 & L2).
  exists (K2 * K1), M2. split; [now apply Rmult_le_pos|]. split; [exact HM2|]. split.
  - intros x Hx. now apply B2, B1.
  - intros x y Hx Hy. eapply Rle_trans; [apply L2; now apply B1|]. rewrite Rmult_assoc. apply Rmult_le_compat_l; [exact HK2|]. now apply L1.
Qed.
Lemma LL_pair (X Y Z : pspace) (f : X -> Y) (g : X -> Z) : LL X Y f -> LL X Z g -> LL X (pprod Y Z) (fun x => (f x, g x)).
Proof.
  intros Hf Hg A. destruct (Hf A) as (K1 & M1 & HK1 & HM1 & B1 & L1). destruct (Hg A) as (K2 & M2 & HK2 & HM2 & B2 & L2).
  exists (K1 + K2), (M1 + M2). split; [lra|]. split; [lra|]. cbn. split.
  - intros x Hx. specialize (B1 x Hx). specialize (B2 x Hx). lra.
  - intros x y Hx Hy. specialize (L1 x y Hx Hy). specialize (L2 x y Hx Hy). lra.
Qed.
Lemma LL_id X : LL X X (fun x => x).
Proof.
  intros A. exists 1, (Rmax 0 A). split; [lra|]. split; [apply Rmax_l|]. split; [intros x Hx; eapply Rle_trans; [exact Hx|apply Rmax_r]|]. intros x y _ _. lra.
Qed.
Lemma LL_fst X Y : LL (pprod X Y) X fst.
Proof.
  intros A. exists 1, (Rmax 0 A). split; [lra|]. split; [apply Rmax_l|]. split.
  - intros [x y] Hx. cbn in *. assert (B := sn_ge0 Y y). eapply Rle_trans; [|apply Rmax_r]. lra.
  - intros [x y] [x' y'] _ _. cbn. assert (B := sd_ge0 Y y y'). lra.
Qed.
Lemma LL_snd X Y : LL (pprod X Y) Y snd.
Proof.
  intros A. exists 1, (Rmax 0 A). split; [lra|]. split; [apply Rmax_l|]. split.
  - intros [x y] Hx. cbn in *. assert (B := sn_ge0 X x). eapply Rle_trans; [|apply Rmax_r]. lra.
  - intros [x y] [x' y'] _ _. cbn. assert (B := sd_ge0 X x x'). lra.
Qed.
Lemma LL_const (X : pspace) (c : R) : LL X Rs (fun _ => c).
Proof.
  intros A. exists 0, (Rabs c). split; [lra|]. split; [apply Rabs_pos|]. cbn. split; [intros; lra|]. intros x y _ _. replace (c - c) with 0 by ring. rewrite Rabs_R0. lra.
Qed.
Lemma LL_plus (X : pspace) (f g : X -> R) : LL X Rs f -> LL X Rs g -> LL X Rs (fun x => f x + g x).
Proof.
  intros Hf Hg A. destruct (Hf A) as (K1 & M1 & HK1 & HM1 & B1 & L1). destruct (Hg A) as (K2 & M2 & HK2 & HM2 & B2 & L2). cbn in *.
  exists (K1 + K2), (M1 + M2). split; [lra|]. split; [lra|]. split.
  - intros x Hx. specialize (B1 x Hx). specialize (B2 x Hx). assert (T := Rabs_triang (f x) (g x)). lra.
  - intros x y Hx Hy. specialize (L1 x y Hx Hy). specialize (L2 x y Hx Hy). assert (T := Rabs_triang (f x - f y) (g x - g y)).
    replace (f x + g x - (f y + g y)) with (f x - f y + (g x - g y)) by ring. lra.
Qed.
Lemma LL_mult (X : pspace) (f g : X -> R) : LL X Rs f -> LL X Rs g -> LL X Rs (fun x => f x * g x).
Proof.
  intros Hf Hg A. destruct (Hf A) as (K1 & M1 & HK1 & HM1 & B1 & L1). destruct (Hg A) as (K2 & M2 & HK2 & HM2 & B2 & L2). cbn in *.
  exists (K1 * M2 + M1 * K2), (M1 * M2). split; [apply Rplus_le_le_0_compat; now apply Rmult_le_pos|]. split; [now apply Rmult_le_pos|]. split.
  - intros x Hx. rewrite Rabs_mult. apply Rmult_le_compat; try apply Rabs_pos; [now apply B1|now apply B2].
  - intros x y Hx Hy. replace (f x * g x - f y * g y) with ((f x - f y) * g x + f y * (g x - g y)) by ring.
    eapply Rle_trans; [apply Rabs_triang|]. rewrite !Rabs_mult.
    assert (D := sd_ge0 X x y). specialize (L1 x y Hx Hy). specialize (L2 x y Hx Hy). assert (b1 := B1 y Hy). assert (b2 := B2 x Hx).
    assert (P1 : Rabs (f x - f y) * Rabs (g x) <= K1 * sd X x y * M2) by (apply Rmult_le_compat; try apply Rabs_pos; assumption).
    assert (P2 : Rabs (f y) * Rabs (g x - g y) <= M1 * (K2 * sd X x y)) by (apply Rmult_le_compat; try apply Rabs_pos; assumption).
    replace ((K1 * M2 + M1 * K2) * sd X x y) with (K1 * sd X x y * M2 + M1 * (K2 * sd X x y)) by ring. lra.
Qed.
Lemma LL_ext (X Y : pspace) (f g : X -> Y) : (forall x, f x = g x) -> LL X Y f -> LL X Y g.
Proof.
  intros E H A. destruct (H A) as (K & M & HK & HM & B & L). exists K, M. split; [exact HK|]. split; [exact HM|]. split.
  - intros x Hx. rewrite <- E. now apply B.
  - intros x y Hx Hy. rewrite <- !E. now apply L.
Qed.
Lemma LL_opp (X : pspace) (f : X -> R) : LL X Rs f -> LL X Rs (fun x => - f x).
Proof. intros H. apply (LL_ext X Rs (fun x => -1 * f x)); [intros; cbn; ring|]. apply (LL_mult X (fun _ => -1)); [apply LL_const|exact H]. Qed.
Lemma LL_minus (X : pspace) (f g : X -> R) : LL X Rs f -> LL X Rs g -> LL X Rs (fun x => f x - g x).
Proof. intros Hf Hg. apply (LL_plus X f (fun x => - g x)); [exact Hf|now apply LL_opp]. Qed.
Lemma LL_pow (X : pspace) (f : X -> R) n : LL X Rs f -> LL X Rs (fun x => f x ^ n).
Proof. intros H. induction n as [|n IH]; [exact (LL_const X 1)|]. cbn [pow]. now apply (LL_mult X f). Qed.
(* a globally Lipschitz function of one variable *)
Lemma LL_glob (phi : R -> R) K : 0 <= K -> (forall x y, Rabs (phi x - phi y) <= K * Rabs (x - y)) -> LL Rs Rs phi.
Proof.
  intros HK H A. exists K, (Rabs (phi 0) + K * Rmax 0 A). assert (HA := Rmax_l 0 A). split; [exact HK|]. split; [apply Rplus_le_le_0_compat; [apply Rabs_pos|now apply Rmult_le_pos]|]. cbn. split.
  - intros x Hx. replace (phi x) with (phi 0 + (phi x - phi 0)) by ring. eapply Rle_trans; [apply Rabs_triang|]. apply Rplus_le_compat_l. eapply Rle_trans; [apply H|]. rewrite Rminus_0_r.
    apply Rmult_le_compat_l; [exact HK|]. eapply Rle_trans; [exact Hx|apply Rmax_r].
  - intros x y _ _. apply H.
Qed.
Lemma mvt_bound (f g : R -> R) K : (forall x : R, is_derive f x (g x)) -> (forall x, Rabs (g x) <= K) -> forall x y, Rabs (f x - f y) <= K * Rabs (x - y).
Proof.
  intros D B x y. destruct (MVT_gen f y x g) as (c & _ & E).
  - intros u _. apply D.
  - intros u _. apply continuity_pt_filterlim, (ex_derive_continuous (K := R_AbsRing) (V := R_NormedModule)). exists (g u). apply D.
  - rewrite E, Rabs_mult. apply Rmult_le_compat_r; [apply Rabs_pos|apply B].
Qed.
Lemma LL_cos : LL Rs Rs cos.
Proof.
  apply (LL_glob cos 1); [lra|]. apply (mvt_bound cos (fun x => - sin x)).
  - intros x. apply is_derive_Reals, derivable_pt_lim_cos.
  - intros x. rewrite Rabs_Ropp. apply Rabs_le. apply SIN_bound.
Qed.
Lemma LL_sin : LL Rs Rs sin.
Proof.
  apply (LL_glob sin 1); [lra|]. apply (mvt_bound sin cos).
  - intros x. apply is_derive_Reals, derivable_pt_lim_sin.
  - intros x. apply Rabs_le. apply COS_bound.
Qed.
Lemma Rmax_lip a b d : Rabs (Rmax a d - Rmax b d) <= Rabs (a - b).
Proof. unfold Rmax. destruct (Rle_dec a d), (Rle_dec b d); unfold Rabs; repeat destruct (Rcase_abs _); lra. Qed.
(* 1/max(x, d) *)
Lemma LL_invmax d : 0 < d -> LL Rs Rs (fun x => / Rmax x d).
Proof.
  intros Hd. apply (LL_glob (fun x => / Rmax x d) (/ d * / d)); [apply Rmult_le_pos; apply Rlt_le, Rinv_0_lt_compat, Hd|]. intros x y.
  assert (P : forall u, d <= Rmax u d) by (intros; apply Rmax_r). assert (Px := P x). assert (Py := P y).
  assert (I : forall u, d <= u -> Rabs (/ u) <= / d). { intros u Hu. rewrite Rabs_pos_eq by (apply Rlt_le, Rinv_0_lt_compat; lra). apply Rinv_le_contravar; lra. }
  replace (/ Rmax x d - / Rmax y d) with (- (Rmax x d - Rmax y d) * (/ Rmax x d * / Rmax y d)) by (field; lra). rewrite !Rabs_mult, Rabs_Ropp, Rmult_comm.
  apply Rmult_le_compat; [apply Rmult_le_pos; apply Rabs_pos|apply Rabs_pos| |apply Rmax_lip].
  apply Rmult_le_compat; try apply Rabs_pos; now apply I.
Qed.
(* continuity in the last variable *)
Lemma LL_continuous (X : pspace) (f : X * R -> R) x (t : R) : LL (pprod X Rs) Rs f -> continuous (fun s => f (x, s)) t.
Proof.
  intros H. destruct (H (sn X x + (Rabs t + 1))) as (K & M & HK & HM & B & L). cbn in *.
  apply (filterlim_locally (fun s => f (x, s)) (f (x, t))). intros eps.
  assert (Hd : 0 < Rmin 1 (eps / (K + 1))) by (apply Rmin_pos; [lra|apply Rdiv_lt_0_compat; [apply eps|lra]]).
  exists (mkposreal _ Hd). intros s Hs. change (Rabs (s - t) < Rmin 1 (eps / (K + 1))) in Hs. change (Rabs (f (x, s) - f (x, t)) < eps).
  assert (Hs1 : Rabs (s - t) < 1) by (eapply Rlt_le_trans; [exact Hs|apply Rmin_l]).
  assert (Hs2 : Rabs (s - t) < eps / (K + 1)) by (eapply Rlt_le_trans; [exact Hs|apply Rmin_r]).
  assert (Hn : Rabs s <= Rabs t + 1) by (replace s with (t + (s - t)) by ring; eapply Rle_trans; [apply Rabs_triang|lra]).
  assert (Q := L (x, s) (x, t)). cbn in Q. rewrite sd_refl, Rplus_0_l in Q. eapply Rle_lt_trans; [apply Q; lra|].
  eapply Rle_lt_trans with ((K + 1) * Rabs (s - t)); [apply Rmult_le_compat_r; [apply Rabs_pos|lra]|].
  replace (pos eps) with ((K + 1) * (eps / (K + 1))) by (field; lra). apply Rmult_lt_compat_l; lra.
Qed.
Lemma LL_ex_RInt (X : pspace) (f : X * R -> R) x a b : LL (pprod X Rs) Rs f -> ex_RInt (fun t => f (x, t)) a b.
Proof. intros H. apply (ex_RInt_continuous (V := R_CompleteNormedModule)). intros t _. now apply LL_continuous. Qed.
(* bounds, oriented *)
Lemma RInt_abs (f : R -> R) a b M : ex_RInt f a b -> (forall t, Rmin a b <= t <= Rmax a b -> Rabs (f t) <= M) -> Rabs (RInt f a b) <= Rabs (b - a) * M.
Proof.
  intros E H. destruct (Rle_dec a b) as [h|h].
  - rewrite Rmin_left, Rmax_right in H by exact h. rewrite (Rabs_pos_eq (b - a)) by lra. now apply abs_RInt_le_const.
  - assert (h' : b <= a) by lra. rewrite Rmin_right, Rmax_left in H by exact h'. rewrite <- opp_RInt_swap by (now apply ex_RInt_swap). rewrite (Rabs_left1 (b - a)) by lra. replace (- (b - a)) with (a - b) by ring.
    change (Rabs (- RInt f b a) <= (a - b) * M). rewrite Rabs_Ropp. apply abs_RInt_le_const; [exact h'|now apply ex_RInt_swap|exact H].
Qed.
Lemma btw a b t A : Rmin a b <= t <= Rmax a b -> Rabs a <= A -> Rabs b <= A -> Rabs t <= A.
Proof.
  intros [H1 H2] Ha Hb. apply Rabs_le_between in Ha. apply Rabs_le_between in Hb. apply Rabs_le_between. revert H1 H2. unfold Rmin, Rmax. destruct (Rle_dec a b); lra.
Qed.
Lemma LL_int (X : pspace) (f : X * R -> R) (lo hi : X -> R) : LL (pprod X Rs) Rs f -> LL X Rs lo -> LL X Rs hi -> LL X Rs (fun x => RInt (fun t => f (x, t)) (lo x) (hi x)).
Proof.
  intros Hf Hlo Hhi A. destruct (Hlo A) as (K1 & M1 & HK1 & HM1 & B1 & L1). destruct (Hhi A) as (K2 & M2 & HK2 & HM2 & B2 & L2).
  destruct (Hf (A + (M1 + M2))) as (K & M & HK & HM & B & L). cbn in *.
  assert (E : forall x a b, ex_RInt (fun t => f (x, t)) a b) by (intros; now apply (LL_ex_RInt X)).
  assert (W : forall x, sn X x <= A -> Rabs (hi x - lo x) <= M1 + M2). { intros x Hx. specialize (B1 x Hx). specialize (B2 x Hx). unfold Rminus. eapply Rle_trans; [apply Rabs_triang|]. rewrite Rabs_Ropp. lra. }
  exists ((M1 + M2) * K + M * K1 + M * K2), ((M1 + M2) * M). split; [|split; [|split]].
  - apply Rplus_le_le_0_compat; [apply Rplus_le_le_0_compat|]; apply Rmult_le_pos; lra.
  - apply Rmult_le_pos; lra.
  - intros x Hx. eapply Rle_trans; [apply (RInt_abs _ _ _ M); [apply E|]|apply Rmult_le_compat_r; [exact HM|now apply W]].
    intros t Ht. apply B. cbn. assert (T := btw _ _ t (M1 + M2) Ht). specialize (B1 x Hx). specialize (B2 x Hx). specialize (T ltac:(lra) ltac:(lra)). lra.
  - intros x y Hx Hy. assert (bx := B1 x Hx). assert (by_ := B1 y Hy). assert (cx := B2 x Hx). assert (cy := B2 y Hy).
    assert (S1 : RInt (fun t => f (x, t)) (lo x) (hi x) - RInt (fun t => f (y, t)) (lo x) (hi x) = RInt (fun t => f (x, t) - f (y, t)) (lo x) (hi x)).
    { symmetry. apply (RInt_minus (V := R_CompleteNormedModule)); apply E. }
    assert (S2 : RInt (fun t => f (y, t)) (lo x) (hi x) = RInt (fun t => f (y, t)) (lo x) (lo y) + RInt (fun t => f (y, t)) (lo y) (hi y) + RInt (fun t => f (y, t)) (hi y) (hi x)).
    { rewrite <- (RInt_Chasles (V := R_CompleteNormedModule) (fun t => f (y, t)) (lo x) (lo y) (hi x)) by apply E.
      rewrite <- (RInt_Chasles (V := R_CompleteNormedModule) (fun t => f (y, t)) (lo y) (hi y) (hi x)) by apply E. unfold plus; cbn. ring. }
    assert (S3 : RInt (fun t => f (x, t)) (lo x) (hi x) - RInt (fun t => f (y, t)) (lo y) (hi y) = RInt (fun t => f (x, t) - f (y, t)) (lo x) (hi x) + RInt (fun t => f (y, t)) (lo x) (lo y) + RInt (fun t => f (y, t)) (hi y) (hi x)) by lra.
    eapply Rle_trans; [right; apply (f_equal Rabs); exact S3|].
    eapply Rle_trans; [apply Rabs_triang|]. eapply Rle_trans; [apply Rplus_le_compat_r, Rabs_triang|]. rewrite (Rmult_plus_distr_r _ (M * K2)), (Rmult_plus_distr_r _ (M * K1)). assert (Dxy := sd_ge0 X x y).
    apply Rplus_le_compat; [apply Rplus_le_compat|].
    + eapply Rle_trans; [apply (RInt_abs _ _ _ (K * sd X x y)); [apply (ex_RInt_minus (V := R_NormedModule)); apply E|]|].
      * intros t Ht. assert (T := btw _ _ t (M1 + M2) Ht ltac:(lra) ltac:(lra)). assert (Q := L (x, t) (y, t)). cbn in Q. rewrite Rabs_diag, Rplus_0_r in Q. apply Q; lra.
      * rewrite Rmult_assoc. apply Rmult_le_compat_r; [now apply Rmult_le_pos|now apply W].
    + eapply Rle_trans; [apply (RInt_abs _ _ _ M); [apply E|]|].
      * intros t Ht. assert (T := btw _ _ t (M1 + M2) Ht ltac:(lra) ltac:(lra)). apply B. cbn. lra.
      * rewrite Rabs_minus_sym, Rmult_assoc, Rmult_comm. apply Rmult_le_compat_l; [exact HM|now apply L1].
    + eapply Rle_trans; [apply (RInt_abs _ _ _ M); [apply E|]|].
      * intros t Ht. assert (T := btw _ _ t (M1 + M2) Ht ltac:(lra) ltac:(lra)). apply B. cbn. lra.
      * rewrite Rmult_assoc, Rmult_comm. apply Rmult_le_compat_l; [exact HM|now apply L2].
Qed.
