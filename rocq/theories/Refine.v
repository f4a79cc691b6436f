(* Sums over the centres of the cells of a lattice and iterated integrals: uniformly continuous functions, the error of
   the midpoint sum over a part of the cells, and its limit in three dimensions. *)
From Coq Require Import Reals Lra Lia List.
From Coquelicot Require Import Coquelicot.
From Verif Require Import Glib LipInt.
Open Scope R_scope.

(* bounded and uniformly continuous on every set of bounded size *)
Definition UC (X Y : pspace) (h : X -> Y) : Prop := forall A, (exists M, 0 <= M /\ forall x, sn X x <= A -> sn Y (h x) <= M) /\
  forall eps, 0 < eps -> exists d, 0 < d /\ forall x y, sn X x <= A -> sn X y <= A -> sd X x y <= d -> sd Y (h x) (h y) <= eps.
Lemma UC_LL X Y h : LL X Y h -> UC X Y h.
Proof.
  intros H A. destruct (H A) as (K & M & HK & HM & B & L). split; [exists M; split; assumption|].
  intros eps He. exists (eps / (K + 1)). split; [apply Rdiv_lt_0_compat; lra|]. intros x y Hx Hy D. eapply Rle_trans; [now apply L|].
  assert (G := sd_ge0 X x y). apply Rle_trans with ((K + 1) * (eps / (K + 1))); [apply Rmult_le_compat; lra|right; field; lra].
Qed.
Lemma UC_comp (X Y Z : pspace) (f : X -> Y) (g : Y -> Z) : UC X Y f -> UC Y Z g -> UC X Z (fun x => g (f x)).
Proof.
  intros Hf Hg A. destruct (Hf A) as ((M1 & HM1 & B1) & L1). destruct (Hg M1) as ((M2 & HM2 & B2) & L2). split.
  - exists M2. split; [exact HM2|]. intros x Hx. now apply B2, B1.
  - intros eps He. destruct (L2 eps He) as (d2 & Hd2 & Q2). destruct (L1 d2 Hd2) as (d1 & Hd1 & Q1). exists d1. split; [exact Hd1|]. intros x y Hx Hy D. apply Q2; [now apply B1|now apply B1|now apply Q1].
Qed.
Lemma UC_pair (X Y Z : pspace) (f : X -> Y) (g : X -> Z) : UC X Y f -> UC X Z g -> UC X (pprod Y Z) (fun x => (f x, g x)).
Proof.
  intros Hf Hg A. destruct (Hf A) as ((M1 & HM1 & B1) & L1). destruct (Hg A) as ((M2 & HM2 & B2) & L2). split.
  - exists (M1 + M2). split; [lra|]. intros x Hx. specialize (B1 x Hx). specialize (B2 x Hx). cbn. lra.
  - intros eps He. destruct (L1 (eps / 2) ltac:(lra)) as (d1 & Hd1 & Q1). destruct (L2 (eps / 2) ltac:(lra)) as (d2 & Hd2 & Q2). exists (Rmin d1 d2). split; [now apply Rmin_pos|]. intros x y Hx Hy D.
    assert (D1 := Rle_trans _ _ _ D (Rmin_l d1 d2)). assert (D2 := Rle_trans _ _ _ D (Rmin_r d1 d2)). specialize (Q1 x y Hx Hy D1). specialize (Q2 x y Hx Hy D2). cbn. lra.
Qed.
Lemma UC_ext (X Y : pspace) (f g : X -> Y) : (forall x, f x = g x) -> UC X Y f -> UC X Y g.
Proof.
  intros E H A. destruct (H A) as ((M & HM & B) & L). split; [exists M; split; [exact HM|]; intros x Hx; rewrite <- E; now apply B|].
  intros eps He. destruct (L eps He) as (d & Hd & Q). exists d. split; [exact Hd|]. intros x y Hx Hy D. rewrite <- !E. now apply Q.
Qed.
(* the square root (of the negative numbers 0) *)
Lemma sqrt_diff a b : sqrt a <= sqrt b + sqrt (Rabs (a - b)).
Proof.
  destruct (Rle_dec a 0) as [h|h]; [rewrite (sqrt_neg_0 a) by exact h; assert (A := sqrt_pos b); assert (B := sqrt_pos (Rabs (a - b))); lra|].
  apply Rle_trans with (sqrt (Rmax b 0 + Rabs (a - b))).
  - apply sqrt_le_1_alt. unfold Rmax, Rabs. destruct (Rle_dec b 0), (Rcase_abs (a - b)); lra.
  - assert (E : sqrt b = sqrt (Rmax b 0)). { unfold Rmax. destruct (Rle_dec b 0) as [k|k]; [rewrite sqrt_0; now apply sqrt_neg_0|reflexivity]. }
    rewrite E. assert (A := sqrt_pos (Rmax b 0)). assert (B := sqrt_pos (Rabs (a - b))). assert (M := Rmax_r b 0). assert (P := Rabs_pos (a - b)).
    apply Rsqr_incr_0_var; [|lra]. unfold Rsqr. rewrite sqrt_sqrt by lra. assert (E1 := sqrt_sqrt _ M). assert (E2 := sqrt_sqrt _ P). nra.
Qed.
Lemma UC_sqrt : UC Rs Rs sqrt.
Proof.
  intros A. split.
  - exists (sqrt (Rabs A)). split; [apply sqrt_pos|]. cbn. intros x Hx. rewrite (Rabs_pos_eq (sqrt x)) by apply sqrt_pos. apply sqrt_le_1_alt. assert (Q := Rle_abs x). assert (Q' := Rle_abs A). lra.
  - intros eps He. exists (eps ^ 2). split; [now apply pow_lt|]. cbn -[pow]. intros x y _ _ D.
    assert (S : forall a b, Rabs (a - b) <= eps ^ 2 -> sqrt (Rabs (a - b)) <= eps). { intros a b Q. rewrite <- (sqrt_pow2 eps) by lra. now apply sqrt_le_1_alt. }
    assert (S1 := S _ _ D). assert (T1 := sqrt_diff x y). assert (T2 := sqrt_diff y x). rewrite Rabs_minus_sym in T2. apply Rabs_le_between. lra.
Qed.
Lemma UC_continuous (X : pspace) (f : X * R -> R) x (t : R) : UC (pprod X Rs) Rs f -> continuous (fun s => f (x, s)) t.
Proof.
  intros H. destruct (H (sn X x + (Rabs t + 1))) as (_ & L). cbn in *.
  apply (filterlim_locally (fun s => f (x, s)) (f (x, t))). intros eps. assert (E := cond_pos eps). destruct (L (eps / 2) ltac:(lra)) as (d & Hd & Q).
  assert (Hd' : 0 < Rmin 1 d) by (apply Rmin_pos; lra).
  exists (mkposreal _ Hd'). intros s Hs. change (Rabs (s - t) < Rmin 1 d) in Hs. change (Rabs (f (x, s) - f (x, t)) < eps).
  assert (Hs1 : Rabs (s - t) < 1) by (eapply Rlt_le_trans; [exact Hs|apply Rmin_l]).
  assert (Hs2 : Rabs (s - t) < d) by (eapply Rlt_le_trans; [exact Hs|apply Rmin_r]).
  assert (Hn : Rabs s <= Rabs t + 1) by (replace s with (t + (s - t)) by ring; eapply Rle_trans; [apply Rabs_triang|lra]).
  specialize (Q (x, s) (x, t)). cbn in Q. rewrite sd_refl, Rplus_0_l in Q. eapply Rle_lt_trans; [apply Q; lra|lra].
Qed.
Lemma UC_ex_RInt (X : pspace) (f : X * R -> R) x a b : UC (pprod X Rs) Rs f -> ex_RInt (fun t => f (x, t)) a b.
Proof. intros H. apply (ex_RInt_continuous (V := R_CompleteNormedModule)). intros t _. now apply UC_continuous. Qed.
Lemma UC_int (X : pspace) (f : X * R -> R) (lo hi : X -> R) : UC (pprod X Rs) Rs f -> UC X Rs lo -> UC X Rs hi -> UC X Rs (fun x => RInt (fun t => f (x, t)) (lo x) (hi x)).
Proof.
  intros Hf Hlo Hhi A. destruct (Hlo A) as ((M1 & HM1 & B1) & L1). destruct (Hhi A) as ((M2 & HM2 & B2) & L2).
  destruct (Hf (A + (M1 + M2))) as ((M & HM & B) & L). cbn in *.
  assert (E : forall x a b, ex_RInt (fun t => f (x, t)) a b) by (intros; now apply (UC_ex_RInt X)).
  assert (W : forall x, sn X x <= A -> Rabs (hi x - lo x) <= M1 + M2). { intros x Hx. specialize (B1 x Hx). specialize (B2 x Hx). unfold Rminus. eapply Rle_trans; [apply Rabs_triang|]. rewrite Rabs_Ropp. lra. }
  split.
  - exists ((M1 + M2) * M). split; [apply Rmult_le_pos; lra|].
    intros x Hx. eapply Rle_trans; [apply (RInt_abs _ _ _ M); [apply E|]|apply Rmult_le_compat_r; [exact HM|now apply W]].
    intros t Ht. apply B. cbn. assert (T := btw _ _ t (M1 + M2) Ht). specialize (B1 x Hx). specialize (B2 x Hx). specialize (T ltac:(lra) ltac:(lra)). lra.
  - intros eps He. set (e1 := eps / (3 * (M1 + M2 + 1))). set (e2 := eps / (3 * (M + 1))).
    assert (He1 : 0 < e1) by (apply Rdiv_lt_0_compat; lra). assert (He2 : 0 < e2) by (apply Rdiv_lt_0_compat; lra).
    destruct (L e1 He1) as (d & Hd & Q). destruct (L1 e2 He2) as (d1 & Hd1 & Q1). destruct (L2 e2 He2) as (d2 & Hd2 & Q2).
    exists (Rmin d (Rmin d1 d2)). split; [repeat apply Rmin_pos; assumption|]. intros x y Hx Hy D.
    assert (D0 := Rle_trans _ _ _ D (Rmin_l _ _)). assert (D' := Rle_trans _ _ _ D (Rmin_r _ _)). assert (D1 := Rle_trans _ _ _ D' (Rmin_l _ _)). assert (D2 := Rle_trans _ _ _ D' (Rmin_r _ _)).
    assert (bx := B1 x Hx). assert (by_ := B1 y Hy). assert (cx := B2 x Hx). assert (cy := B2 y Hy).
    assert (S1 : RInt (fun t => f (x, t)) (lo x) (hi x) - RInt (fun t => f (y, t)) (lo x) (hi x) = RInt (fun t => f (x, t) - f (y, t)) (lo x) (hi x)).
    { symmetry. apply (RInt_minus (V := R_CompleteNormedModule)); apply E. }
    assert (S2 : RInt (fun t => f (y, t)) (lo x) (hi x) = RInt (fun t => f (y, t)) (lo x) (lo y) + RInt (fun t => f (y, t)) (lo y) (hi y) + RInt (fun t => f (y, t)) (hi y) (hi x)).
    { rewrite <- (RInt_Chasles (V := R_CompleteNormedModule) (fun t => f (y, t)) (lo x) (lo y) (hi x)) by apply E.
      rewrite <- (RInt_Chasles (V := R_CompleteNormedModule) (fun t => f (y, t)) (lo y) (hi y) (hi x)) by apply E. unfold plus; cbn. ring. }
    assert (S3 : RInt (fun t => f (x, t)) (lo x) (hi x) - RInt (fun t => f (y, t)) (lo y) (hi y) = RInt (fun t => f (x, t) - f (y, t)) (lo x) (hi x) + RInt (fun t => f (y, t)) (lo x) (lo y) + RInt (fun t => f (y, t)) (hi y) (hi x)) by lra.
    eapply Rle_trans; [right; apply (f_equal Rabs); exact S3|].
    eapply Rle_trans; [apply Rabs_triang|]. eapply Rle_trans; [apply Rplus_le_compat_r, Rabs_triang|].
    replace eps with ((M1 + M2 + 1) * e1 + e2 * (M + 1) + e2 * (M + 1)) by (unfold e1, e2; field; lra).
    apply Rplus_le_compat; [apply Rplus_le_compat|].
    + eapply Rle_trans; [apply (RInt_abs _ _ _ e1); [apply (ex_RInt_minus (V := R_NormedModule)); apply E|]|].
      * intros t Ht. assert (T := btw _ _ t (M1 + M2) Ht ltac:(lra) ltac:(lra)). specialize (Q (x, t) (y, t)). cbn in Q. rewrite Rabs_diag, Rplus_0_r in Q. apply Q; lra.
      * apply Rmult_le_compat_r; [lra|]. assert (U := W x Hx). lra.
    + eapply Rle_trans; [apply (RInt_abs _ _ _ M); [apply E|]|].
      * intros t Ht. assert (T := btw _ _ t (M1 + M2) Ht ltac:(lra) ltac:(lra)). apply B. cbn. lra.
      * rewrite Rabs_minus_sym. apply Rmult_le_compat; [apply Rabs_pos|exact HM|now apply Q1|lra].
    + eapply Rle_trans; [apply (RInt_abs _ _ _ M); [apply E|]|].
      * intros t Ht. assert (T := btw _ _ t (M1 + M2) Ht ltac:(lra) ltac:(lra)). apply B. cbn. lra.
      * apply Rmult_le_compat; [apply Rabs_pos|exact HM|now apply Q2|lra].
Qed.

(* ---- sums over the cells of [a, b] ---- *)
Fixpoint rs (n : nat) (F : nat -> R) : R := match n with O => 0 | Datatypes.S k => rs k F + F k end.
Lemma rs_ext n F G : (forall i, (i < n)%nat -> F i = G i) -> rs n F = rs n G.
Proof. induction n as [|n IH]; intros H; [reflexivity|]. cbn. rewrite H by lia. now rewrite IH by (intros; apply H; lia). Qed.
Lemma rs_plus n F G : rs n (fun i => F i + G i) = rs n F + rs n G.
Proof. induction n as [|n IH]; cbn; [ring|rewrite IH; ring]. Qed.
Lemma rs_scal n c F : rs n (fun i => c * F i) = c * rs n F.
Proof. induction n as [|n IH]; cbn; [ring|rewrite IH; ring]. Qed.
Lemma rs_le n F G : (forall i, (i < n)%nat -> F i <= G i) -> rs n F <= rs n G.
Proof. induction n as [|n IH]; intros H; cbn; [lra|]. assert (Q := H n ltac:(lia)). assert (I := IH ltac:(intros; apply H; lia)). lra. Qed.
Lemma rs_dist n F G E : (forall i, (i < n)%nat -> Rabs (F i - G i) <= E i) -> Rabs (rs n F - rs n G) <= rs n E.
Proof.
  induction n as [|n IH]; intros H; cbn; [rewrite Rminus_0_r, Rabs_R0; lra|]. assert (Q := H n ltac:(lia)). assert (I := IH ltac:(intros; apply H; lia)).
  replace (rs n F + F n - (rs n G + G n)) with ((rs n F - rs n G) + (F n - G n)) by ring. eapply Rle_trans; [apply Rabs_triang|]. lra.
Qed.
Lemma rs_const n c : rs n (fun _ => c) = INR n * c.
Proof. induction n as [|n IH]; cbn [rs]; [cbn; ring|rewrite IH, S_INR; ring]. Qed.
Lemma rs_tele n (s : nat -> R) : rs n (fun i => s (Datatypes.S i) - s i) = s n - s O.
Proof. induction n as [|n IH]; cbn; [ring|rewrite IH; ring]. Qed.

Definition pas (c t : R) : R := if Rle_dec c t then 1 else 0.
Lemma pas_range c t : 0 <= pas c t <= 1. Proof. unfold pas. destruct (Rle_dec c t); lra. Qed.
Definition clip (e f t : R) : R := Rmax e (Rmin f t).
Definition chi (b : bool) : R := if b then 1 else 0.
Lemma chi_range b : 0 <= chi b <= 1. Proof. destruct b; cbn; lra. Qed.
(* one cell: the indicator at its centre against the length of its part in [e, f] *)
Lemma cell_defect e f x h (b : bool) : e <= f -> 0 < h -> (b = true -> e <= x + h / 2 <= f) -> (e < x + h / 2 < f -> b = true) ->
  Rabs (chi b * h - (clip e f (x + h) - clip e f x)) <= h * (pas e (x + h) - pas e x) + h * (pas f (x + h) - pas f x).
Proof.
  intros He Hh H1 H2.
  assert (C : forall t, t <= e -> clip e f t = e). { intros t Ht. unfold clip. rewrite (Rmin_right f t) by lra. apply Rmax_left. lra. }
  assert (C' : forall t, e <= t <= f -> clip e f t = t). { intros t Ht. unfold clip. rewrite (Rmin_right f t) by lra. apply Rmax_right. lra. }
  assert (C'' : forall t, f <= t -> clip e f t = f). { intros t Ht. unfold clip. rewrite (Rmin_left f t) by lra. apply Rmax_right. lra. }
  assert (G : 0 <= clip e f (x + h) - clip e f x <= h).
  { destruct (Rle_dec (x + h) e) as [a|a]; [rewrite !C by lra; lra|]. destruct (Rle_dec f x) as [b'|b']; [rewrite !C'' by lra; lra|].
    destruct (Rle_dec x e), (Rle_dec f (x + h)).
    - rewrite (C x), (C'' (x + h)) by lra. lra.
    - rewrite (C x), (C' (x + h)) by lra. lra.
    - rewrite (C' x), (C'' (x + h)) by lra. lra.
    - rewrite !C' by lra. lra. }
  assert (K := chi_range b). assert (Z : Rabs (chi b * h - (clip e f (x + h) - clip e f x)) <= h) by (apply Rabs_le_between; nra).
  unfold pas. destruct (Rle_dec e x), (Rle_dec e (x + h)), (Rle_dec f x), (Rle_dec f (x + h)); try lra.
  - rewrite !C'' by lra. assert (b = false) as -> by (destruct b; [specialize (H1 eq_refl); lra|reflexivity]). cbn. rewrite Rabs_right; lra.
  - rewrite !C' by lra. rewrite H2 by lra. cbn. replace (1 * h - (x + h - x)) with 0 by ring. rewrite Rabs_R0. lra.
  - rewrite !C by lra. assert (b = false) as -> by (destruct b; [specialize (H1 eq_refl); lra|reflexivity]). cbn. rewrite Rabs_right; lra.
Qed.
Lemma clip_in e f t : e <= f -> e <= clip e f t <= f.
Proof. intros H. unfold clip. split; [apply Rmax_l|]. apply Rmax_lub; [exact H|apply Rmin_l]. Qed.
Lemma clip_mono e f s t : s <= t -> clip e f s <= clip e f t.
Proof. intros H. unfold clip. apply Rle_max_compat_l. now apply Rle_min_compat_l. Qed.
Lemma clip_near e f s t u h : e <= f -> s <= t -> t - s <= h -> clip e f s <= u <= clip e f t -> (clip e f s < clip e f t -> s <= u <= t).
Proof.
  intros He Hst Hh Hu Hc. unfold clip, Rmax, Rmin in *. destruct (Rle_dec f s), (Rle_dec f t), (Rle_dec e f), (Rle_dec e s), (Rle_dec e t); lra.
Qed.

Section Cells.
Variables (a b : R) (n : nat).
Hypotheses (Hab : a < b) (Hn : (0 < n)%nat).
Definition cw : R := (b - a) / INR n.
Definition edge (i : nat) : R := a + INR i * cw.
Definition mid (i : nat) : R := a + (INR i + 1 / 2) * cw.
Lemma cw_pos : 0 < cw. Proof. unfold cw. apply Rdiv_lt_0_compat; [lra|now apply lt_0_INR]. Qed.
Lemma edge_S i : edge (Datatypes.S i) = edge i + cw. Proof. unfold edge. rewrite S_INR. ring. Qed.
Lemma mid_edge i : mid i = edge i + cw / 2. Proof. unfold mid, edge. lra. Qed.
Lemma edge_0 : edge 0 = a. Proof. unfold edge. cbn. ring. Qed.
Lemma edge_n : edge n = b. Proof. unfold edge, cw. field. apply Rgt_not_eq, lt_0_INR, Hn. Qed.
Lemma rs_cw : rs n (fun _ => cw) = b - a. Proof. rewrite rs_const. unfold cw. field. apply Rgt_not_eq, lt_0_INR, Hn. Qed.

(* the midpoint sum over the cells whose centre is in the interval from e to f *)
Lemma cells_sum (e f M eps : R) (g : R -> R) (S : nat -> bool) : a <= e -> e <= f -> f <= b -> 0 <= eps -> 0 <= M ->
  (forall x, e <= x <= f -> Rabs (g x) <= M) -> (forall x y, e <= x <= f -> e <= y <= f -> Rabs (x - y) <= cw -> Rabs (g x - g y) <= eps) -> ex_RInt g e f ->
  (forall i, (i < n)%nat -> S i = true -> e <= mid i <= f) -> (forall i, (i < n)%nat -> e < mid i < f -> S i = true) ->
  Rabs (rs n (fun i => chi (S i) * (cw * g (mid i))) - RInt g e f) <= eps * (f - e) + 4 * M * cw.
Proof.
  intros Ha He Hb Heps HM HB HU EX S1 S2. assert (Hc := cw_pos). set (K := fun i => clip e f (edge i)).
  assert (EXc : forall i j, ex_RInt g (K i) (K j)).
  { assert (U : forall i, ex_RInt g e (K i)) by (intros i; apply (ex_RInt_Chasles_1 (V := R_CompleteNormedModule) g e (K i) f); [apply clip_in; exact He|exact EX]).
    intros i j. apply (ex_RInt_Chasles (V := R_NormedModule) g _ e); [apply ex_RInt_swap|]; apply U. }
  assert (T : forall k, rs k (fun i => RInt g (K i) (K (Datatypes.S i))) = RInt g (K O) (K k)).
  { induction k as [|k IH]; cbn [rs]; [rewrite (RInt_point (V := R_CompleteNormedModule)); reflexivity|]. rewrite IH. apply (RInt_Chasles (V := R_CompleteNormedModule)); apply EXc. }
  assert (K0 : K O = e). { unfold K. rewrite edge_0. unfold clip. rewrite Rmin_right by lra. apply Rmax_left. lra. }
  assert (Kn : K n = f). { unfold K. rewrite edge_n. unfold clip. rewrite Rmin_left by lra. apply Rmax_right. lra. }
  rewrite <- K0 at 1. rewrite <- Kn at 1. rewrite <- T. clear T.
  apply Rle_trans with (rs n (fun i => eps * (K (Datatypes.S i) - K i) + 2 * M * (cw * (pas e (edge (Datatypes.S i)) - pas e (edge i)) + cw * (pas f (edge (Datatypes.S i)) - pas f (edge i))))).
  - apply rs_dist. intros i Hi. assert (D := cell_defect e f (edge i) cw (S i) He Hc). rewrite <- mid_edge, <- edge_S in D. specialize (D (S1 i Hi) (S2 i Hi)). fold (K (Datatypes.S i)) (K i) in D.
    set (q := cw * _ + cw * _) in *. clearbody q. assert (Kmono : K i <= K (Datatypes.S i)) by (apply clip_mono; rewrite edge_S; lra).
    assert (Kin : e <= K i /\ K (Datatypes.S i) <= f) by (split; apply clip_in; exact He).
    assert (P0 := Rabs_pos (chi (S i) * cw - (K (Datatypes.S i) - K i))).
    destruct (Rle_lt_or_eq_dec _ _ Kmono) as [Klt|Keq].
    + (* compare with the centre, or with the left end if the centre is outside *)
      set (c := if Rle_dec e (mid i) then if Rle_dec (mid i) f then mid i else K i else K i).
      assert (Hc1 : e <= c <= f) by (unfold c; destruct (Rle_dec e (mid i)); [destruct (Rle_dec (mid i) f)|]; lra).
      assert (Hc2 : edge i <= c <= edge (Datatypes.S i)).
      { assert (Q : edge i <= K i <= edge (Datatypes.S i)). { apply (clip_near e f (edge i) (edge (Datatypes.S i)) (K i) cw He); assert (EQ := edge_S i); fold (K i) (K (Datatypes.S i)); [lra|lra|split; lra|lra]. }
        assert (Q' := mid_edge i). assert (EQ := edge_S i). unfold c. destruct (Rle_dec e (mid i)); [destruct (Rle_dec (mid i) f)|]; lra. }
      assert (Hg : chi (S i) * (cw * g (mid i)) = chi (S i) * (cw * g c)).
      { unfold c. destruct (S i) eqn:ES; [|cbn; ring]. destruct (S1 i Hi ES). destruct (Rle_dec e (mid i)); [destruct (Rle_dec (mid i) f)|]; try lra; reflexivity. }
      rewrite Hg. set (lam := K (Datatypes.S i) - K i) in *.
      assert (I1 : RInt (fun _ => g c) (K i) (K (Datatypes.S i)) = lam * g c) by (rewrite (RInt_const (V := R_CompleteNormedModule)); reflexivity).
      assert (I2 : Rabs (RInt g (K i) (K (Datatypes.S i)) - lam * g c) <= eps * lam).
      { rewrite <- I1. replace (RInt g (K i) (K (Datatypes.S i)) - RInt (fun _ => g c) (K i) (K (Datatypes.S i))) with (RInt (fun t => minus (g t) (g c)) (K i) (K (Datatypes.S i))).
        2:{ apply (RInt_minus (V := R_CompleteNormedModule)); [apply EXc|apply ex_RInt_const]. }
        rewrite Rmult_comm. apply abs_RInt_le_const; [exact Kmono|apply (ex_RInt_minus (V := R_NormedModule)); [apply EXc|apply ex_RInt_const]|].
        intros t Ht. change (Rabs (g t - g c) <= eps). apply HU; [lra|exact Hc1|].
        assert (EQ := edge_S i). assert (Q := clip_near e f (edge i) (edge (Datatypes.S i)) t cw He). fold (K i) (K (Datatypes.S i)) in Q. specialize (Q ltac:(lra) ltac:(lra) Ht Klt). apply Rabs_le_between. lra. }
      replace (chi (S i) * (cw * g c) - RInt g (K i) (K (Datatypes.S i))) with ((chi (S i) * cw - lam) * g c - (RInt g (K i) (K (Datatypes.S i)) - lam * g c)) by ring.
      unfold Rminus at 1. eapply Rle_trans; [apply Rabs_triang|]. rewrite Rabs_Ropp, Rabs_mult. assert (Bc := HB c Hc1). assert (P1 := Rabs_pos (g c)). nra.
    + rewrite <- Keq in *. rewrite (RInt_point (V := R_CompleteNormedModule)). change (@zero _) with 0. replace (K i - K i) with 0 in * by ring. rewrite Rminus_0_r in *.
      assert (Z : Rabs (chi (S i) * (cw * g (mid i))) <= M * Rabs (chi (S i) * cw)).
      { destruct (S i) eqn:ES; cbn; [|rewrite !Rmult_0_l, Rabs_R0; lra]. rewrite !Rmult_1_l, Rabs_mult, Rmult_comm. apply Rmult_le_compat_r; [apply Rabs_pos|]. apply HB. now apply S1. }
      nra.
  - rewrite rs_plus, !rs_scal, rs_plus, !rs_scal. rewrite (rs_tele n K), (rs_tele n (fun i => pas e (edge i))), (rs_tele n (fun i => pas f (edge i))), K0, Kn.
    assert (P1 := pas_range e (edge n)). assert (P2 := pas_range e (edge 0)). assert (P3 := pas_range f (edge n)). assert (P4 := pas_range f (edge 0)).
    apply Rplus_le_compat_l. replace (4 * M * cw) with (2 * M * (cw * 1 + cw * 1)) by ring. apply Rmult_le_compat_l; [lra|]. apply Rplus_le_compat; apply Rmult_le_compat_l; lra.
Qed.
End Cells.

Lemma nat_above (x : R) : exists N, x < INR N.
Proof.
  exists (Z.to_nat (up x)). destruct (archimed x) as [H _]. destruct (Z_le_dec 0 (up x)) as [h|h].
  - rewrite INR_IZR_INZ, Z2Nat.id by exact h. lra.
  - assert (Q : (up x <= 0)%Z) by lia. apply IZR_le in Q. assert (Q' := pos_INR (Z.to_nat (up x))). lra.
Qed.
Lemma cw_small a b d : a < b -> 0 < d -> exists N, (0 < N)%nat /\ forall n, (N <= n)%nat -> cw a b n <= d.
Proof.
  intros Hab Hd. destruct (nat_above ((b - a) / d)) as [N HN]. exists (Datatypes.S N). split; [lia|]. intros n Hn. unfold cw. assert (Q : 0 < INR n) by (apply lt_0_INR; lia).
  assert (Q' : INR N <= INR n) by (apply le_INR; lia). apply (Rmult_le_reg_r (INR n)); [exact Q|]. replace ((b - a) / INR n * INR n) with (b - a) by (field; lra).
  apply Rle_trans with (d * ((b - a) / d)); [right; field; lra|]. apply Rmult_le_compat_l; lra.
Qed.
Lemma edge_in a b n i : a < b -> (0 < n)%nat -> (i < n)%nat -> a <= mid a b n i <= b.
Proof.
  intros Hab Hn Hi. assert (Hc := cw_pos a b n Hab Hn). assert (E := edge_n a b n Hn). unfold edge in E. unfold mid.
  assert (Q0 := pos_INR i). assert (Q : INR i + 1 <= INR n) by (rewrite <- S_INR; apply le_INR; lia). split; nra.
Qed.
(* one variable, with parameters x *)
Lemma cells_uc (X : pspace) (F : X * R -> R) a b A eta : a < b -> UC (pprod X Rs) Rs F -> 0 < eta ->
  exists N, (0 < N)%nat /\ forall n, (N <= n)%nat -> forall x e f (S : nat -> bool), sn X x <= A -> a <= e -> e <= f -> f <= b ->
    (forall i, (i < n)%nat -> S i = true -> e <= mid a b n i <= f) -> (forall i, (i < n)%nat -> e < mid a b n i < f -> S i = true) ->
    Rabs (rs n (fun i => chi (S i) * (cw a b n * F (x, mid a b n i))) - RInt (fun t => F (x, t)) e f) <= eta * (b - a + 1).
Proof.
  intros Hab HF He. destruct (HF (A + (Rabs a + Rabs b))) as ((M & HM & B) & L). destruct (L eta He) as (d & Hd & Q). cbn in *.
  destruct (cw_small a b (Rmin d (eta / (4 * M + 1))) Hab) as (N & HN & HW). { apply Rmin_pos; [exact Hd|]. apply Rdiv_lt_0_compat; lra. }
  exists N. split; [exact HN|]. intros n Hn x e f S Hx H1 H2 H3 S1 S2. specialize (HW n Hn). assert (W1 := Rle_trans _ _ _ HW (Rmin_l _ _)). assert (W2 := Rle_trans _ _ _ HW (Rmin_r _ _)).
  assert (Hn' : (0 < n)%nat) by lia. assert (Hc := cw_pos a b n Hab Hn').
  assert (BB : forall t, e <= t <= f -> Rabs t <= Rabs a + Rabs b). { intros t Ht. assert (U := Rabs_pos a). assert (U' := Rabs_pos b). apply (btw a b); [rewrite Rmin_left, Rmax_right by lra; lra|lra|lra]. }
  eapply Rle_trans; [apply (cells_sum a b n Hab Hn' e f M eta (fun t => F (x, t)) S H1 H2 H3)|]; try assumption; try lra.
  - intros t Ht. apply B. cbn. specialize (BB t Ht). lra.
  - intros t s Ht Hs D. apply Q; cbn; [specialize (BB t Ht); lra|specialize (BB s Hs); lra|]. rewrite sd_refl. lra.
  - now apply (UC_ex_RInt X).
  - rewrite Rmult_plus_distr_l, Rmult_1_r. apply Rplus_le_compat; [apply Rmult_le_compat_l; lra|]. apply Rle_trans with ((4 * M + 1) * (eta / (4 * M + 1))); [|right; field; lra]. apply Rmult_le_compat; lra.
Qed.
(* error of a sum of which every term has an error *)
Lemma rs_err n (c : nat -> bool) w (F G : nat -> R) E : 0 <= w -> 0 <= E -> (forall i, (i < n)%nat -> c i = true -> Rabs (F i - G i) <= E) ->
  Rabs (rs n (fun i => chi (c i) * (w * F i)) - rs n (fun i => chi (c i) * (w * G i))) <= INR n * w * E.
Proof.
  intros Hw HE H. rewrite Rmult_assoc, <- rs_const. apply rs_dist. intros i Hi. destruct (c i) eqn:Ec; cbn.
  - specialize (H i Hi Ec). replace (1 * (w * F i) - 1 * (w * G i)) with (w * (F i - G i)) by ring. rewrite Rabs_mult, (Rabs_pos_eq w) by exact Hw. now apply Rmult_le_compat_l.
  - rewrite !Rmult_0_l, Rminus_0_r, Rabs_R0. now apply Rmult_le_pos.
Qed.

Lemma via x y z p q : Rabs (x - y) <= p -> Rabs (y - z) <= q -> Rabs (x - z) <= p + q.
Proof. intros H1 H2. replace (x - z) with ((x - y) + (y - z)) by ring. eapply Rle_trans; [apply Rabs_triang|lra]. Qed.
Definition P2 : pspace := pprod Rs Rs.
(* the sum over the lattice points of a region, times the volume of a cell *)
Definition lattice_sum (a1 b1 a2 b2 a3 b3 : R) (n1 n2 n3 : nat) (s1 : R -> bool) (s2 : R -> R -> bool) (s3 : R -> R -> R -> bool) (F : R -> R -> R -> R) : R :=
  rs n1 (fun i => chi (s1 (mid a1 b1 n1 i)) * (cw a1 b1 n1 * rs n2 (fun j => chi (s2 (mid a1 b1 n1 i) (mid a2 b2 n2 j)) * (cw a2 b2 n2 *
    rs n3 (fun k => chi (s3 (mid a1 b1 n1 i) (mid a2 b2 n2 j) (mid a3 b3 n3 k)) * (cw a3 b3 n3 * F (mid a1 b1 n1 i) (mid a2 b2 n2 j) (mid a3 b3 n3 k))))))).
Theorem lattice_limit (X : pspace) (a1 b1 a2 b2 a3 b3 e f : R) (lo1 hi1 : R -> R) (lo2 hi2 : R -> R -> R) (s1 : R -> bool) (s2 : R -> R -> bool) (s3 : R -> R -> R -> bool) (F : X -> R -> R -> R -> R) :
  a1 < b1 -> a2 < b2 -> a3 < b3 -> a1 <= e -> e <= f -> f <= b1 ->
  (forall u, e <= u <= f -> a2 <= lo1 u /\ lo1 u <= hi1 u /\ hi1 u <= b2) ->
  (forall u v, e <= u <= f -> lo1 u <= v <= hi1 u -> a3 <= lo2 u v /\ lo2 u v <= hi2 u v /\ hi2 u v <= b3) ->
  UC Rs Rs lo1 -> UC Rs Rs hi1 -> UC P2 Rs (fun p => lo2 (fst p) (snd p)) -> UC P2 Rs (fun p => hi2 (fst p) (snd p)) ->
  UC (pprod (pprod (pprod X Rs) Rs) Rs) Rs (fun p => F (fst (fst (fst p))) (snd (fst (fst p))) (snd (fst p)) (snd p)) ->
  (forall u, s1 u = true -> e <= u <= f) -> (forall u, e < u < f -> s1 u = true) ->
  (forall u v, e <= u <= f -> s2 u v = true -> lo1 u <= v <= hi1 u) -> (forall u v, e <= u <= f -> lo1 u < v < hi1 u -> s2 u v = true) ->
  (forall u v w, e <= u <= f -> lo1 u <= v <= hi1 u -> s3 u v w = true -> lo2 u v <= w <= hi2 u v) -> (forall u v w, e <= u <= f -> lo1 u <= v <= hi1 u -> lo2 u v < w < hi2 u v -> s3 u v w = true) ->
  let G := fun x u v => RInt (fun w => F x u v w) (lo2 u v) (hi2 u v) in let H := fun x u => RInt (fun v => G x u v) (lo1 u) (hi1 u) in let I := fun x => RInt (fun u => H x u) e f in
  (forall x u v, is_RInt (fun w => F x u v w) (lo2 u v) (hi2 u v) (G x u v)) /\ (forall x u, is_RInt (fun v => G x u v) (lo1 u) (hi1 u) (H x u)) /\ (forall x, is_RInt (fun u => H x u) e f (I x)) /\ UC X Rs I /\
  forall A0 eps, 0 < eps -> exists N, (0 < N)%nat /\ forall n1 n2 n3 x, (N <= n1)%nat -> (N <= n2)%nat -> (N <= n3)%nat -> sn X x <= A0 ->
    Rabs (lattice_sum a1 b1 a2 b2 a3 b3 n1 n2 n3 s1 s2 s3 (F x) - I x) <= eps.
Proof.
  intros H1 H2 H3 He1 He2 He3 Hb1 Hb2 U1 U2 U3 U4 UF S1 S1' S2 S2' S3 S3' G H I.
  assert (T0 : forall Y Z, UC (pprod Y Z) Z (fun p => snd p)) by (intros Y Z; apply UC_LL, LL_snd).
  assert (TL : UC (pprod (pprod X Rs) Rs) P2 (fun p => (snd (fst p), snd p))).
  { apply (UC_pair (pprod (pprod X Rs) Rs) Rs Rs (fun p => snd (fst p)) (fun p => snd p)); [|apply (T0 (pprod X Rs) Rs)]. exact (UC_comp (pprod (pprod X Rs) Rs) (pprod X Rs) Rs fst snd (UC_LL _ _ _ (LL_fst (pprod X Rs) Rs)) (T0 X Rs)). }
  assert (UG : UC (pprod (pprod X Rs) Rs) Rs (fun p => G (fst (fst p)) (snd (fst p)) (snd p))).
  { apply (UC_int (pprod (pprod X Rs) Rs) (fun p => F (fst (fst (fst p))) (snd (fst (fst p))) (snd (fst p)) (snd p)) (fun p => lo2 (snd (fst p)) (snd p)) (fun p => hi2 (snd (fst p)) (snd p))); [exact UF| |].
    - exact (UC_comp (pprod (pprod X Rs) Rs) P2 Rs (fun p => (snd (fst p), snd p)) (fun p => lo2 (fst p) (snd p)) TL U3).
    - exact (UC_comp (pprod (pprod X Rs) Rs) P2 Rs (fun p => (snd (fst p), snd p)) (fun p => hi2 (fst p) (snd p)) TL U4). }
  assert (UH : UC (pprod X Rs) Rs (fun p => H (fst p) (snd p))).
  { apply (UC_int (pprod X Rs) (fun p => G (fst (fst p)) (snd (fst p)) (snd p)) (fun p => lo1 (snd p)) (fun p => hi1 (snd p))); [exact UG| |].
    - exact (UC_comp (pprod X Rs) Rs Rs (fun p => snd p) lo1 (T0 X Rs) U1).
    - exact (UC_comp (pprod X Rs) Rs Rs (fun p => snd p) hi1 (T0 X Rs) U2). }
  assert (UI : UC X Rs I). { apply (UC_int X (fun p => H (fst p) (snd p)) (fun _ => e) (fun _ => f)); [exact UH| |]; apply UC_LL, LL_const. }
  split; [|split; [|split; [|split; [exact UI|]]]].
  { intros x u v. apply (RInt_correct (V := R_CompleteNormedModule)). exact (UC_ex_RInt (pprod (pprod X Rs) Rs) (fun p => F (fst (fst (fst p))) (snd (fst (fst p))) (snd (fst p)) (snd p)) ((x, u), v) _ _ UF). }
  { intros x u. apply (RInt_correct (V := R_CompleteNormedModule)). exact (UC_ex_RInt (pprod X Rs) (fun p => G (fst (fst p)) (snd (fst p)) (snd p)) (x, u) _ _ UG). }
  { intros x. apply (RInt_correct (V := R_CompleteNormedModule)). exact (UC_ex_RInt X (fun p => H (fst p) (snd p)) x _ _ UH). }
  intros A0 eps Heps.
  set (C := (b1 - a1) * ((b2 - a2) * (b3 - a3 + 1) + (b2 - a2 + 1)) + (b1 - a1 + 1)).
  assert (HC : 0 < C). { unfold C. assert (0 < (b1 - a1) * ((b2 - a2) * (b3 - a3 + 1) + (b2 - a2 + 1))); [|lra]. apply Rmult_lt_0_compat; [lra|]. assert (0 < (b2 - a2) * (b3 - a3 + 1)); [|lra]. apply Rmult_lt_0_compat; lra. }
  set (eta := eps / C). assert (Het : 0 < eta) by (now apply Rdiv_lt_0_compat).
  set (A := A0 + (Rabs a1 + Rabs b1 + (Rabs a2 + Rabs b2))).
  assert (BB : forall a b t, a <= b -> a <= t <= b -> Rabs t <= Rabs a + Rabs b). { intros a b t Hab Ht. assert (U := Rabs_pos a). assert (U' := Rabs_pos b). apply (btw a b); [rewrite Rmin_left, Rmax_right by lra; lra|lra|lra]. }
  destruct (cells_uc (pprod (pprod X Rs) Rs) (fun p => F (fst (fst (fst p))) (snd (fst (fst p))) (snd (fst p)) (snd p)) a3 b3 A eta H3 UF Het) as (N3 & HN3 & Q3).
  destruct (cells_uc (pprod X Rs) (fun p => G (fst (fst p)) (snd (fst p)) (snd p)) a2 b2 A eta H2 UG Het) as (N2 & HN2 & Q2).
  destruct (cells_uc X (fun p => H (fst p) (snd p)) a1 b1 A eta H1 UH Het) as (N1 & HN1 & Q1).
  exists (N1 + N2 + N3)%nat. split; [lia|]. intros n1 n2 n3 x M1 M2 M3 Hx.
  assert (P1 := Rabs_pos a1). assert (P1' := Rabs_pos b1). assert (P3 := Rabs_pos a2). assert (P3' := Rabs_pos b2).
  set (E3 := eta * (b3 - a3 + 1)). set (E2 := (b2 - a2) * E3 + eta * (b2 - a2 + 1)).
  assert (HE3 : 0 <= E3) by (unfold E3; apply Rmult_le_pos; lra). assert (HE2 : 0 <= E2). { unfold E2. apply Rplus_le_le_0_compat; [apply Rmult_le_pos; lra|apply Rmult_le_pos; lra]. }
  assert (C1 := cw_pos a1 b1 n1 H1 ltac:(lia)). assert (C2 := cw_pos a2 b2 n2 H2 ltac:(lia)).
  assert (W1 : INR n1 * cw a1 b1 n1 = b1 - a1) by (rewrite <- rs_const; apply rs_cw; lia). assert (W2 : INR n2 * cw a2 b2 n2 = b2 - a2) by (rewrite <- rs_const; apply rs_cw; lia).
  unfold lattice_sum. change (I x) with (RInt (fun u => H x u) e f).
  replace eps with (INR n1 * cw a1 b1 n1 * E2 + eta * (b1 - a1 + 1)) by (rewrite W1; unfold E2, E3, eta, C; unfold C in HC; field; lra).
  apply (via _ (rs n1 (fun i => chi (s1 (mid a1 b1 n1 i)) * (cw a1 b1 n1 * H x (mid a1 b1 n1 i))))).
  - apply rs_err; [lra|exact HE2|]. intros i Hi Hs. set (u := mid a1 b1 n1 i) in *. assert (Hu := S1 u Hs). destruct (Hb1 u Hu) as (B1 & B2 & B3). assert (Nu := BB a1 b1 u ltac:(lra) ltac:(lra)).
    unfold E2. rewrite <- W2 at 1. apply (via _ (rs n2 (fun j => chi (s2 u (mid a2 b2 n2 j)) * (cw a2 b2 n2 * G x u (mid a2 b2 n2 j))))).
    + apply rs_err; [lra|exact HE3|]. intros j Hj Hs2. set (v := mid a2 b2 n2 j) in *. assert (Hv := S2 u v Hu Hs2). destruct (Hb2 u v Hu Hv) as (B4 & B5 & B6). assert (Nv := BB a2 b2 v ltac:(lra) ltac:(lra)).
      apply (Q3 n3 ltac:(lia) ((x, u), v) (lo2 u v) (hi2 u v) (fun k => s3 u v (mid a3 b3 n3 k))); cbn; try assumption; [unfold A; lra| |]; intros k Hk; [now apply S3|now apply S3'].
    + apply (Q2 n2 ltac:(lia) (x, u) (lo1 u) (hi1 u) (fun k => s2 u (mid a2 b2 n2 k))); cbn; try assumption; [unfold A; lra| |]; intros k Hk; [now apply S2|now apply S2'].
  - apply (Q1 n1 ltac:(lia) x e f (fun k => s1 (mid a1 b1 n1 k))); cbn; try assumption; [unfold A; lra| |]; intros k Hk; [now apply S1|now apply S1'].
Qed.
