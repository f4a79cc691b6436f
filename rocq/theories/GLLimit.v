(* Gauss-Legendre sums over the points of a region tend to the integral over the region. *)
From Coq Require Import Reals Lra Lia List.
From Coquelicot Require Import Coquelicot.
From Verif Require Import Glib LipInt BodyInt NewtonSpec PointSpec GLSpec Gauss Refine Refine2 Refine7 GLEven Props_GL3.
Open Scope R_scope.

Definition gq (a b : R) (r : list (R * R)) (f : R -> R) : R := quad r (fun t => (b - a) / 2 * f ((a + b) / 2 + t * ((b - a) / 2))).
Section OneRule.
Variables (a b : R) (n : nat) (r : list (R * R)).
Hypotheses (Hab : a < b) (G : gauss_rule n r).
Lemma gq_in p : In p r -> a <= (a + b) / 2 + fst p * ((b - a) / 2) <= b.
Proof. intros Hp. destruct (gr_in n r G p Hp) as (H & _). split; nra. Qed.
Lemma gq_le f g : (forall x, a <= x <= b -> f x <= g x) -> gq a b r f <= gq a b r g.
Proof. intros H. apply quad_le; [intros p Hp; apply (gr_in n r G p Hp)|]. intros p Hp. apply Rmult_le_compat_l; [lra|]. apply H. now apply gq_in. Qed.
End OneRule.
Lemma gq_ext a b n r f g : a < b -> gauss_rule n r -> (forall x, a <= x <= b -> f x = g x) -> gq a b r f = gq a b r g.
Proof. intros Hab G H. apply Rle_antisym; apply (gq_le a b n r Hab G); intros x Hx; rewrite (H x Hx); lra. Qed.
Lemma gq_eq a b r f g : (forall x, f x = g x) -> gq a b r f = gq a b r g.
Proof. intros H. apply quad_ext. intros t. now rewrite H. Qed.
Lemma gq_plus a b r f g : gq a b r (fun x => f x + g x) = gq a b r f + gq a b r g.
Proof. unfold gq. rewrite <- quad_add. apply quad_ext. intros t. ring. Qed.
Lemma gq_scal a b r c f : gq a b r (fun x => c * f x) = c * gq a b r f.
Proof. unfold gq. rewrite <- quad_scal. apply quad_ext. intros t. ring. Qed.
Lemma gq_minus a b r f g : gq a b r (fun x => f x - g x) = gq a b r f - gq a b r g.
Proof. assert (E : gq a b r (fun x => f x - g x) = gq a b r (fun x => f x + (-1) * g x)) by (apply gq_eq; intros; ring). rewrite E, gq_plus, gq_scal. ring. Qed.
Lemma gq_zero a b r : gq a b r (fun _ => 0) = 0.
Proof. unfold gq, quad. induction r as [|p l IH]; cbn [fold_right]; [reflexivity|]. rewrite IH. ring. Qed.
Lemma gq_rs a b r n (F : nat -> R -> R) : gq a b r (fun x => rs n (fun k => F k x)) = rs n (fun k => gq a b r (F k)).
Proof. induction n as [|n IH]; cbn [rs]; [apply gq_zero|]. now rewrite gq_plus, IH. Qed.
Lemma gq_one a b n r : (0 < n)%nat -> gauss_rule n r -> gq a b r (fun _ => 1) = b - a.
Proof. intros Hn G. unfold gq. rewrite (quad_scal r ((b - a) / 2) (fun _ => 1)), (quad_one n r Hn G). field. Qed.
Lemma gq_near a b n r f g E : a < b -> (0 < n)%nat -> gauss_rule n r -> (forall x, a <= x <= b -> Rabs (f x - g x) <= E) -> Rabs (gq a b r f - gq a b r g) <= (b - a) * E.
Proof.
  intros Hab Hn G H. assert (O : forall c, gq a b r (fun _ => c) = (b - a) * c) by (intros c; assert (E1 : gq a b r (fun _ => c) = gq a b r (fun _ => c * 1)) by (apply gq_eq; intros; ring); rewrite E1, (gq_scal a b r c (fun _ => 1)), (gq_one a b n r Hn G); ring).
  rewrite <- gq_minus. apply Rabs_le_between. split.
  - replace (- ((b - a) * E)) with ((b - a) * - E) by ring. rewrite <- (O (- E)). apply (gq_le a b n r Hab G). intros x Hx. assert (Q := H x Hx). apply Rabs_le_between in Q. lra.
  - rewrite <- (O E). apply (gq_le a b n r Hab G). intros x Hx. assert (Q := H x Hx). apply Rabs_le_between in Q. lra.
Qed.
Lemma gq_even a b delta : a < b -> 0 < delta -> exists N, forall n r c s, (N <= n)%nat -> gauss_rule n r -> a <= c <= b -> below s c -> Rabs (gq a b r (fun x => chi (s x)) - (c - a)) <= delta.
Proof.
  intros Hab Hd. destruct (gauss_even (2 * delta / (b - a)) ltac:(apply Rdiv_lt_0_compat; lra)) as (N & H). exists N. intros n r c s Hn G Hc (S1 & S2).
  set (c' := (2 * c - (a + b)) / (b - a)). assert (EC : (a + b) / 2 + c' * ((b - a) / 2) = c) by (unfold c'; field; lra).
  assert (Q := H n r c' (fun t => s ((a + b) / 2 + t * ((b - a) / 2))) Hn G). assert (C' : -1 <= c' <= 1) by (split; apply (Rmult_le_reg_r ((b - a) / 2)); lra).
  specialize (Q C'). assert (B : below (fun t => s ((a + b) / 2 + t * ((b - a) / 2))) c').
  { split; intros t Ht; [specialize (S1 _ Ht); apply (Rmult_le_reg_r ((b - a) / 2)); lra|]. apply S2. rewrite <- EC. apply Rplus_lt_compat_l, Rmult_lt_compat_r; lra. }
  specialize (Q B). unfold gq. rewrite (quad_scal r ((b - a) / 2) (fun t => chi (s ((a + b) / 2 + t * ((b - a) / 2))))). set (q := quad r _) in *.
  replace ((b - a) / 2 * q - (c - a)) with ((b - a) / 2 * (q - (c' + 1))) by (rewrite <- EC; field). rewrite Rabs_mult, Rabs_pos_eq by lra.
  replace delta with ((b - a) / 2 * (2 * delta / (b - a))) by (field; lra). apply Rmult_le_compat_l; [lra|exact Q].
Qed.
(* left sums over K equal pieces *)
Lemma left_sum (g : R -> R) e f w K : e <= f -> (0 < K)%nat -> ex_RInt g e f -> (forall x y, e <= x <= f -> e <= y <= f -> Rabs (x - y) <= (f - e) / INR K -> Rabs (g x - g y) <= w) ->
  Rabs (rs K (fun k => (f - e) / INR K * g (e + INR k * ((f - e) / INR K))) - RInt g e f) <= (f - e) * w.
Proof.
  intros He HK EX HU. set (h := (f - e) / INR K) in *. assert (KP : 0 < INR K) by (now apply lt_0_INR). assert (Hh : 0 <= h) by (apply Rdiv_le_0_compat; lra). assert (HE : INR K * h = f - e) by (unfold h; field; lra).
  set (c := fun k => e + INR k * h). assert (C0 : c O = e) by (unfold c; cbn; ring). assert (CS : forall k, c (Datatypes.S k) = c k + h) by (intros k; unfold c; rewrite S_INR; ring). assert (CK : c K = f) by (unfold c; lra).
  assert (CI : forall k, (k <= K)%nat -> e <= c k <= f). { intros k Hk. apply le_INR in Hk. assert (0 <= INR k) by apply pos_INR. unfold c. assert (0 <= INR k * h <= INR K * h) by (split; [apply Rmult_le_pos; lra|apply Rmult_le_compat_r; lra]). lra. }
  assert (EXc : forall u v, e <= u <= f -> e <= v <= f -> ex_RInt g u v).
  { assert (U : forall u, e <= u <= f -> ex_RInt g e u) by (intros u Hu; apply (ex_RInt_Chasles_1 (V := R_CompleteNormedModule) g e u f); assumption).
    intros u v Hu Hv. apply (ex_RInt_Chasles (V := R_NormedModule) g _ e); [apply ex_RInt_swap|]; now apply U. }
  assert (T : forall k, (k <= K)%nat -> rs k (fun i => RInt g (c i) (c (Datatypes.S i))) = RInt g e (c k)).
  { induction k as [|k IH]; intros Hk; cbn [rs]; [rewrite C0, (RInt_point (V := R_CompleteNormedModule)); reflexivity|]. rewrite IH by lia. apply (RInt_Chasles (V := R_CompleteNormedModule)); apply EXc; (apply CI; lia) || lra. }
  assert (T' := T K (Nat.le_refl K)). rewrite CK in T'. rewrite <- T'. replace ((f - e) * w) with (INR K * (h * w)) by (rewrite <- HE; ring). rewrite <- rs_const. apply rs_dist. intros i Hi. fold (c i).
  assert (I1 : RInt (fun _ => g (c i)) (c i) (c (Datatypes.S i)) = h * g (c i)) by (rewrite (RInt_const (V := R_CompleteNormedModule)); rewrite CS; change ((c i + h - c i) * g (c i) = h * g (c i)); ring).
  assert (J := EXc (c i) (c (Datatypes.S i)) (CI i ltac:(lia)) (CI (Datatypes.S i) ltac:(lia))).
  rewrite <- I1, Rabs_minus_sym. replace (RInt g (c i) (c (Datatypes.S i)) - RInt (fun _ => g (c i)) (c i) (c (Datatypes.S i))) with (RInt (fun t => minus (g t) (g (c i))) (c i) (c (Datatypes.S i))).
  2:{ apply (RInt_minus (V := R_CompleteNormedModule)); [exact J|apply ex_RInt_const]. }
  replace (h * w) with ((c (Datatypes.S i) - c i) * w) by (rewrite CS; ring). apply abs_RInt_le_const; [rewrite CS; lra|apply (ex_RInt_minus (V := R_NormedModule)); [exact J|apply ex_RInt_const]|].
  intros t Ht. change (Rabs (g t - g (c i)) <= w). assert (Q1 := CI i ltac:(lia)). assert (Q2 := CI (Datatypes.S i) ltac:(lia)). rewrite CS in Ht, Q2. apply HU; [lra|exact Q1|]. rewrite Rabs_pos_eq; lra.
Qed.
Lemma chi_sum (U : nat -> bool) K : rs K (fun k => chi (U (Datatypes.S k)) - chi (U k)) = chi (U K) - chi (U O).
Proof. exact (rs_tele K (fun k => chi (U k))). Qed.
Lemma rule_sum a b n r delta : a < b -> (0 < n)%nat -> gauss_rule n r -> 0 <= delta -> (forall c s, a <= c <= b -> below s c -> Rabs (gq a b r (fun x => chi (s x)) - (c - a)) <= delta) ->
  forall e f M w K (g : R -> R) (s : R -> bool), a <= e -> e <= f -> f <= b -> (0 < K)%nat -> 0 <= M -> 0 <= w -> (forall x, e <= x <= f -> Rabs (g x) <= M) ->
  (forall x y, e <= x <= f -> e <= y <= f -> Rabs (x - y) <= (f - e) / INR K -> Rabs (g x - g y) <= w) -> ex_RInt g e f ->
  (forall t, s t = true -> e <= t <= f) -> (forall t, e < t < f -> s t = true) ->
  Rabs (gq a b r (fun x => chi (s x) * g x) - RInt g e f) <= 2 * (b - a) * w + 2 * INR K * M * delta.
Proof.
  intros Hab Hn G Hd EV e f M w K g s Ha He Hb HK HM Hw HB HU EX S1 S2. set (h := (f - e) / INR K) in *. assert (KP : 0 < INR K) by (now apply lt_0_INR). assert (Hh : 0 <= h) by (apply Rdiv_le_0_compat; lra). assert (HE : INR K * h = f - e) by (unfold h; field; lra).
  set (c := fun k => e + INR k * h). assert (C0 : c O = e) by (unfold c; cbn; ring). assert (CS : forall k, c (Datatypes.S k) = c k + h) by (intros k; unfold c; rewrite S_INR; ring). assert (CK : c K = f) by (unfold c; lra).
  assert (CI : forall k, (k <= K)%nat -> e <= c k <= f). { intros k Hk. apply le_INR in Hk. assert (0 <= INR k) by apply pos_INR. unfold c. assert (0 <= INR k * h <= INR K * h) by (split; [apply Rmult_le_pos; lra|apply Rmult_le_compat_r; lra]). lra. }
  set (le := fun x y => if Rle_dec x y then true else false). assert (le_iff : forall x y, le x y = true <-> x <= y) by (intros x y; unfold le; destruct (Rle_dec x y); split; intros; (assumption || reflexivity || discriminate || contradiction)).
  (* before the interval; up to c k *)
  set (U0 := fun t => (le t e && negb (s t))%bool). set (U := fun k t => match k with O => U0 t | Datatypes.S _ => (U0 t || (s t && le t (c k)))%bool end).
  assert (U0_iff : forall t, U0 t = true <-> t <= e /\ s t = false) by (intros t; unfold U0; rewrite Bool.andb_true_iff, le_iff, Bool.negb_true_iff; tauto).
  assert (US_iff : forall k t, U (Datatypes.S k) t = true <-> U0 t = true \/ (s t = true /\ t <= c (Datatypes.S k))) by (intros k t; cbn [U]; rewrite Bool.orb_true_iff, Bool.andb_true_iff, le_iff; tauto).
  assert (SB : forall t, t < e -> s t = false) by (intros t Ht; destruct (s t) eqn:E; [specialize (S1 t E); lra|reflexivity]).
  assert (BL : forall k, (k <= K)%nat -> below (U k) (c k)).
  { intros [|k] Hk; [rewrite C0; split; intros t Ht; [now apply U0_iff|apply U0_iff; split; [lra|now apply SB]]|]. assert (Q := CI (Datatypes.S k) Hk). split; intros t Ht.
    - apply US_iff in Ht. destruct Ht as [Ht|Ht]; [apply U0_iff in Ht; lra|tauto].
    - apply US_iff. destruct (s t) eqn:E; [right; split; [reflexivity|lra]|left]. apply U0_iff. split; [|exact E]. destruct (Rle_lt_dec t e); [assumption|]. rewrite S2 in E by lra. discriminate. }
  assert (MON : forall k t, (k < K)%nat -> U k t = true -> U (Datatypes.S k) t = true).
  { intros [|k] t Hk Ht; apply US_iff; [now left|]. apply US_iff in Ht. destruct Ht as [Ht|(Ht & L)]; [now left|right]. split; [exact Ht|]. rewrite (CS (Datatypes.S k)). lra. }
  assert (NEW : forall k t, (k < K)%nat -> U k t = false -> U (Datatypes.S k) t = true -> c k <= t <= c (Datatypes.S k)).
  { intros k t Hk Hf Ht. apply US_iff in Ht. assert (F0 : U0 t = false). { destruct k; [exact Hf|]. destruct (U0 t) eqn:E; [|reflexivity]. assert (Z : U (Datatypes.S k) t = true) by (apply US_iff; now left). congruence. }
    destruct Ht as [Ht|(Ht & L)]; [congruence|]. split; [|exact L]. destruct k as [|k]; [rewrite C0; apply (S1 t Ht)|]. destruct (Rle_lt_dec (c (Datatypes.S k)) t); [assumption|]. assert (Z : U (Datatypes.S k) t = true) by (apply US_iff; right; split; [exact Ht|lra]). congruence. }
  assert (CHI : forall t, chi (s t) = rs K (fun k => chi (U (Datatypes.S k) t) - chi (U k t))).
  { intros t. rewrite (chi_sum (fun k => U k t) K). destruct K as [|K']; [lia|]. destruct (s t) eqn:E.
    - assert (A : U (Datatypes.S K') t = true) by (apply US_iff; right; split; [exact E|rewrite CK; apply (S1 t E)]). rewrite A. assert (B : U O t = false) by (cbn [U]; destruct (U0 t) eqn:Z; [apply U0_iff in Z; destruct Z; congruence|reflexivity]). rewrite B. cbn. ring.
    - assert (A : U (Datatypes.S K') t = U O t). { destruct (U O t) eqn:Z; [apply US_iff; now left|]. destruct (U (Datatypes.S K') t) eqn:Z'; [|reflexivity]. apply US_iff in Z'. cbn [U] in Z. destruct Z' as [Z'|(Z' & _)]; congruence. } rewrite A. cbn. ring. }
  assert (Q1 : Rabs (gq a b r (fun x => chi (s x) * g x) - gq a b r (fun x => rs K (fun k => g (c k) * (chi (U (Datatypes.S k) x) - chi (U k x))))) <= (b - a) * w).
  { apply (gq_near a b n r _ _ w Hab Hn G). intros x Hx. rewrite CHI, Rmult_comm, <- rs_scal.
    apply Rle_trans with (rs K (fun k => w * (chi (U (Datatypes.S k) x) - chi (U k x)))).
    - apply rs_dist. intros k Hk. cbv beta. set (D := chi (U (Datatypes.S k) x) - chi (U k x)). replace (g x * D - g (c k) * D) with ((g x - g (c k)) * D) by ring. rewrite Rabs_mult. unfold D. clear D. destruct (U k x) eqn:E1.
      + rewrite (MON k x Hk E1). cbn. rewrite Rminus_eq_0, Rabs_R0. lra.
      + destruct (U (Datatypes.S k) x) eqn:E2; cbn; [|rewrite Rminus_eq_0, Rabs_R0; lra]. assert (Q := NEW k x Hk E1 E2). replace (1 - 0) with 1 by ring. rewrite Rabs_R1, !Rmult_1_r.
        assert (A := CI k ltac:(lia)). assert (B := CI (Datatypes.S k) ltac:(lia)). rewrite CS in Q, B. apply HU; [lra|exact A|]. rewrite Rabs_pos_eq; lra.
    - rewrite rs_scal, <- CHI. assert (Z := chi_range (s x)). rewrite <- (Rmult_1_r w) at 2. apply Rmult_le_compat_l; lra. }
  rewrite gq_rs in Q1.
  assert (Q2 : Rabs (rs K (fun k => gq a b r (fun x => g (c k) * (chi (U (Datatypes.S k) x) - chi (U k x)))) - rs K (fun k => h * g (c k))) <= 2 * INR K * M * delta).
  { replace (2 * INR K * M * delta) with (INR K * (M * (2 * delta))) by ring. rewrite <- rs_const. apply rs_dist. intros k Hk. cbv beta. rewrite (gq_scal a b r (g (c k)) (fun x => chi (U (Datatypes.S k) x) - chi (U k x))), gq_minus.
    assert (I0 := CI k ltac:(lia)). assert (I1 := CI (Datatypes.S k) ltac:(lia)). assert (E1 := EV (c (Datatypes.S k)) (U (Datatypes.S k)) ltac:(lra) (BL (Datatypes.S k) ltac:(lia))). assert (E0 := EV (c k) (U k) ltac:(lra) (BL k ltac:(lia))). rewrite CS in E1.
    set (q1 := gq a b r (fun x => chi (U (Datatypes.S k) x))) in *. set (q0 := gq a b r (fun x => chi (U k x))) in *. clearbody q1 q0. replace (g (c k) * (q1 - q0) - h * g (c k)) with (g (c k) * (q1 - q0 - h)) by ring. rewrite Rabs_mult.
    apply Rmult_le_compat; try apply Rabs_pos; [now apply HB|]. apply Rabs_le_between in E1. apply Rabs_le_between in E0. apply Rabs_le_between. lra. }
  assert (Q3 := left_sum g e f w K He HK EX HU). fold h in Q3. change (fun k : nat => h * g (e + INR k * h)) with (fun k : nat => h * g (c k)) in Q3.
  assert (Q4 := via _ _ _ _ _ (via _ _ _ _ _ Q1 Q2) Q3). eapply Rle_trans; [exact Q4|]. assert ((f - e) * w <= (b - a) * w) by (apply Rmult_le_compat_r; lra). lra.
Qed.
Lemma rule_uc (X : pspace) (F : X * R -> R) a b A eta : a < b -> UC (pprod X Rs) Rs F -> 0 < eta ->
  exists N, (0 < N)%nat /\ forall n r, (N <= n)%nat -> gauss_rule n r -> forall x e f (s : R -> bool), sn X x <= A -> a <= e -> e <= f -> f <= b ->
    (forall t, s t = true -> e <= t <= f) -> (forall t, e < t < f -> s t = true) ->
    Rabs (gq a b r (fun t => chi (s t) * F (x, t)) - RInt (fun t => F (x, t)) e f) <= eta.
Proof.
  intros Hab HF He. destruct (HF (A + (Rabs a + Rabs b))) as ((M & HM & B) & L). set (w := eta / (4 * (b - a))). assert (Hw : 0 < w) by (apply Rdiv_lt_0_compat; lra). destruct (L w Hw) as (d & Hd & Q). cbn in *.
  destruct (nat_above ((b - a) / d)) as (K0 & HK0). set (K := Datatypes.S K0). assert (KP : INR K0 < INR K) by (unfold K; rewrite S_INR; lra). assert (KK : 0 < INR K) by (unfold K; apply lt_0_INR; lia).
  set (delta := eta / (4 * INR K * (M + 1))). assert (DP : 0 < 4 * INR K * (M + 1)) by (apply Rmult_lt_0_compat; lra). assert (Hdel : 0 < delta) by (apply Rdiv_lt_0_compat; lra).
  destruct (gq_even a b delta Hab Hdel) as (N & EV). exists (Datatypes.S N). split; [lia|]. intros n r Hn G x e f s Hx H1 H2 H3 S1 S2.
  assert (BB : forall t, e <= t <= f -> Rabs t <= Rabs a + Rabs b). { intros t Ht. assert (U := Rabs_pos a). assert (U' := Rabs_pos b). apply (btw a b); [rewrite Rmin_left, Rmax_right by lra; lra|lra|lra]. }
  eapply Rle_trans; [apply (rule_sum a b n r delta Hab ltac:(lia) G ltac:(lra) (fun c s' => EV n r c s' ltac:(lia) G) e f M w K (fun t => F (x, t)) s H1 H2 H3 ltac:(unfold K; lia) HM ltac:(lra))|]; try assumption.
  - intros t Ht. apply B. cbn. specialize (BB t Ht). lra.
  - intros t u Ht Hu D. apply Q; cbn; [specialize (BB t Ht); lra|specialize (BB u Hu); lra|]. rewrite sd_refl. assert ((f - e) / INR K <= d); [|lra].
    apply (Rmult_le_reg_r (INR K)); [exact KK|]. replace ((f - e) / INR K * INR K) with (f - e) by (field; lra). apply Rle_trans with (d * ((b - a) / d)); [right; field; lra|apply Rmult_le_compat_l; lra] || (apply Rle_trans with (b - a); [lra|]; replace (b - a) with (d * ((b - a) / d)) by (field; lra); apply Rmult_le_compat_l; lra).
  - now apply (UC_ex_RInt X).
  - assert (E1 : 2 * (b - a) * w = eta / 2) by (unfold w; field; lra). assert (E2 : 2 * INR K * (M + 1) * delta = eta / 2) by (unfold delta; field; lra).
    assert (2 * INR K * M * delta <= 2 * INR K * (M + 1) * delta) by (apply Rmult_le_compat_r; [lra|apply Rmult_le_compat_l; lra]). lra.
Qed.
