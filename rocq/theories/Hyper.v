(* The same integrals as hypergeometric series: the binomial series of the square root converges uniformly on [0, 1] *)
From Coq Require Import Reals Lra Lia Arith.
From Coquelicot Require Import Coquelicot.
From Verif Require Import EllSpec Legendre Gauss Elliptic.
Open Scope R_scope.

(* coefficients of sqrt (1 - u) and the partial sums *)
Fixpoint sc (n : nat) : R := match n with O => 1 | S k => sc k * (2 * INR k - 1) / (2 * INR k + 2) end.
Fixpoint sp (n : nat) (u : R) : R := match n with O => 1 | S k => sp k u + sc (S k) * u ^ S k end.
Fixpoint sp' (n : nat) (u : R) : R := match n with O => 0 | S k => sp' k u + sc (S k) * (INR (S k) * u ^ k) end.
Lemma sp_der n (u : R) : is_derive (sp n) u (sp' n u).
Proof.
  induction n as [|n IH].
  - apply (is_derive_const (K:=R_AbsRing)(V := R_NormedModule)).
  - change (is_derive (fun u => sp n u + sc (S n) * u ^ S n) u (sp' n u + sc (S n) * (INR (S n) * u ^ n))).
    apply (is_derive_plus (K:=R_AbsRing)(V := R_NormedModule) (sp n) (fun u => sc (S n) * u ^ S n)); [exact IH|].
    apply der_scal. eapply is_derive_eq; [apply (is_derive_pow (fun x : R => x) (S n) u 1); apply der_id|].
    change (pred (S n)) with n. ring.
Qed.
Lemma sp_ode n u : (1 - u) * sp' n u + sp n u / 2 = - (INR n + 1) * sc (S n) * u ^ n.
Proof.
  induction n as [|n IH].
  - cbn [sp sp' sc INR pow]. field.
  - cbn [sp sp']. assert (Hn := pos_INR n).
    assert (E : sc (S (S n)) = sc (S n) * (2 * INR (S n) - 1) / (2 * INR (S n) + 2)) by reflexivity. rewrite E, S_INR.
    replace ((1 - u) * (sp' n u + sc (S n) * ((INR n + 1) * u ^ n)) + (sp n u + sc (S n) * u ^ S n) / 2)
      with (((1 - u) * sp' n u + sp n u / 2) + (1 - u) * sc (S n) * ((INR n + 1) * u ^ n) + sc (S n) * u ^ S n / 2) by field.
    rewrite IH. cbn [pow]. field. lra.
Qed.
(* the partial sum at 1, which bounds the error *)
Definition se (n : nat) : R := sp n 1.
Lemma se_sc n : se n = - 2 * (INR n + 1) * sc (S n).
Proof. assert (E := sp_ode n 1). rewrite pow1 in E. unfold se. lra. Qed.
Lemma se_S n : se (S n) = se n * ((2 * INR n + 1) / (2 * INR n + 2)).
Proof.
  assert (Hn := pos_INR n). assert (E : se (S n) = se n + sc (S n)) by (unfold se; cbn [sp]; rewrite pow1; ring).
  rewrite E. assert (E2 := se_sc n). replace (sc (S n)) with (- se n / (2 * (INR n + 1))) by (rewrite E2; field; lra). field. lra.
Qed.
Lemma se_pos n : 0 < se n.
Proof.
  induction n; [unfold se; cbn; lra|]. rewrite se_S. assert (Hn := pos_INR n). apply Rmult_lt_0_compat; [easy|]. apply Rdiv_lt_0_compat; lra.
Qed.
Lemma se_small n : se n ^ 2 * (2 * INR n + 1) <= 1.
Proof.
  induction n as [|n IH]; [unfold se; cbn; lra|]. rewrite se_S, S_INR. assert (Hn := pos_INR n).
  replace ((se n * ((2 * INR n + 1) / (2 * INR n + 2))) ^ 2 * (2 * (INR n + 1) + 1)) with (se n ^ 2 * (2 * INR n + 1) * (((2 * INR n + 1) * (2 * INR n + 3)) / (2 * INR n + 2) ^ 2)) by (field; lra).
  assert (0 <= ((2 * INR n + 1) * (2 * INR n + 3)) / (2 * INR n + 2) ^ 2 <= 1).
  { split; [apply Rdiv_le_0_compat; nra|]. apply Rmult_le_reg_r with ((2 * INR n + 2) ^ 2); [nra|]. unfold Rdiv. rewrite Rmult_assoc, Rinv_l by nra. nra. }
  assert (0 <= se n ^ 2 * (2 * INR n + 1)) by (assert (P := se_pos n); nra). nra.
Qed.
Lemma sc_neg n : sc (S n) < 0.
Proof. assert (E := se_sc n). assert (P := se_pos n). assert (Hn := pos_INR n). nra. Qed.
Lemma se_lim eps : 0 < eps -> exists N, forall n, (N <= n)%nat -> se n < eps.
Proof.
  intros He. destruct (archimed_cor1 (eps ^ 2)) as (N & HN & HN0); [nra|]. exists N. intros n Hn.
  assert (P := se_pos n). assert (S1 := se_small n). apply le_INR in Hn. assert (0 < INR N) by (apply lt_0_INR; lia).
  assert (1 < eps ^ 2 * INR N). { apply Rmult_lt_reg_r with (/ INR N); [now apply Rinv_0_lt_compat|]. rewrite Rmult_assoc, Rinv_r, Rmult_1_l, Rmult_1_r by lra. easy. }
  apply Rnot_le_lt. intros K. assert (eps ^ 2 <= se n ^ 2) by (apply pow_incr; lra). nra.
Qed.
Lemma mono_le (f f' : R -> R) a b : a <= b -> (forall x, a <= x <= b -> is_derive f x (f' x)) -> (forall x, a < x < b -> 0 <= f' x) -> f a <= f b.
Proof.
  intros Hab Hd Hp. destruct (Req_dec a b) as [->|N]; [lra|]. assert (Hlt : a < b) by lra.
  destruct (MVT_cor2 f f' a b Hlt) as (c & E & Hc).
  - intros x Hx. apply is_derive_Reals. now apply Hd.
  - specialize (Hp c Hc). nra.
Qed.
Lemma isq_der (u : R) : u < 1 -> is_derive (fun u => / sqrt (1 - u)) u (/ 2 * / (sqrt (1 - u) * (1 - u))).
Proof.
  intros H. assert (P : 0 < sqrt (1 - u)) by (apply sqrt_lt_R0; lra). assert (Q : sqrt (1 - u) * sqrt (1 - u) = 1 - u) by (apply sqrt_sqrt; lra).
  auto_derive; [repeat split; first [exact I|lra|apply Rgt_not_eq; exact P]|]. replace (1 + - u) with (1 - u) by ring. set (q := sqrt (1 - u)) in *.
  replace (1 - u) with (q * q). field. lra.
Qed.
Lemma sp_bounds n u : (1 <= n)%nat -> 0 <= u <= 1 -> 0 <= sp n u - sqrt (1 - u) <= se n.
Proof.
  intros Hn Hu. assert (P0 := se_pos n). destruct (Req_dec u 1) as [->|N].
  { replace (1 - 1) with 0 by ring. rewrite sqrt_0. unfold se in *. lra. }
  assert (Hu1 : u < 1) by lra. assert (P : 0 < sqrt (1 - u)) by (apply sqrt_lt_R0; lra).
  set (b := fun t => / sqrt (1 - t)). set (b' := fun t => / 2 * / (sqrt (1 - t) * (1 - t))).
  assert (B : forall t, t < 1 -> is_derive b t (b' t)) by (intros; now apply isq_der).
  assert (Q : forall t, t < 1 -> 0 < sqrt (1 - t) /\ sqrt (1 - t) * sqrt (1 - t) = 1 - t) by (intros; split; [apply sqrt_lt_R0|apply sqrt_sqrt]; lra).
  assert (G : forall t, t < 1 -> is_derive (fun t => sp n t * b t) t (se n / 2 * (t ^ n * (2 * b' t)))).
  { intros t Ht. destruct (Q t Ht) as (Q1 & Q2). eapply is_derive_eq; [exact (der_mul _ _ _ _ _ (sp_der n t) (B t Ht))|].
    assert (O := sp_ode n t). assert (E := se_sc n). unfold b, b'. set (q := sqrt (1 - t)) in *.
    replace (se n / 2 * (t ^ n * (2 * (/ 2 * / (q * (1 - t)))))) with ((- (INR n + 1) * sc (S n) * t ^ n) / (q * (1 - t))) by (rewrite E; field; lra).
    rewrite <- O. field. lra. }
  assert (L1 : sp n 0 = 1). { clear. induction n; [reflexivity|]. cbn [sp]. rewrite IHn. cbn [pow]. ring. }
  assert (b0 : b 0 = 1) by (unfold b; rewrite Rminus_0_r, sqrt_1; apply Rinv_1).
  assert (Bp : forall t, t < 1 -> 0 < b' t).
  { intros t Ht. destruct (Q t Ht). unfold b'. apply Rmult_lt_0_compat; [lra|]. apply Rinv_0_lt_compat. apply Rmult_lt_0_compat; lra. }
  split.
  - assert (K : sp n 0 * b 0 <= sp n u * b u).
    { apply (mono_le (fun t => sp n t * b t) (fun t => se n / 2 * (t ^ n * (2 * b' t))) 0 u); [lra|intros; apply G; lra|].
      intros t Ht. assert (0 < b' t) by (apply Bp; lra). assert (0 < t ^ n) by (apply pow_lt; lra). assert (0 <= t ^ n * (2 * b' t)) by nra. nra. }
    rewrite L1, b0 in K. unfold b in K. apply Rmult_le_compat_r with (r := sqrt (1 - u)) in K; [|lra]. replace (sp n u * / sqrt (1 - u) * sqrt (1 - u)) with (sp n u) in K by (field; lra). lra.
  - assert (K : (se n * 0 ^ n) * b 0 - sp n 0 * b 0 <= (se n * u ^ n) * b u - sp n u * b u).
    { apply (mono_le (fun t => (se n * t ^ n) * b t - sp n t * b t) (fun t => se n * (INR n * t ^ pred n) * b t) 0 u); [lra| |].
      - intros t Ht. assert (Ht1 : t < 1) by lra. destruct (Q t Ht1) as (Q1 & Q2).
        assert (Dp : is_derive (fun t => se n * t ^ n) t (se n * (INR n * 1 * t ^ pred n))).
        { apply der_scal. apply (is_derive_pow (fun x : R => x) n t 1). apply der_id. }
        eapply is_derive_eq; [exact (der_sub _ _ _ _ _ (der_mul _ _ _ _ _ Dp (B t Ht1)) (G t Ht1))|]. unfold b. field. lra.
      - intros t Ht. assert (Ht1 : t < 1) by lra. destruct (Q t Ht1) as (Q1 & Q2). unfold b. apply Rmult_le_pos; [|left; now apply Rinv_0_lt_compat].
        apply Rmult_le_pos; [lra|]. apply Rmult_le_pos; [apply pos_INR|]. apply pow_le. lra. }
    rewrite L1, b0 in K. assert (Z : 0 ^ n = 0) by (apply pow_i; lia). rewrite Z in K. unfold b in K.
    apply Rmult_le_compat_r with (r := sqrt (1 - u)) in K; [|lra].
    replace ((se n * u ^ n * / sqrt (1 - u) - sp n u * / sqrt (1 - u)) * sqrt (1 - u)) with (se n * u ^ n - sp n u) in K by (field; lra).
    assert (u ^ n <= 1). { replace 1 with (1 ^ n) by apply pow1. apply pow_incr. lra. }
    nra.
Qed.

(* Wallis integrals *)
Definition Wa (n : nat) : R := RInt (fun u => cos u ^ 2 * sin u ^ (2 * n)) (- h) h.
Lemma Wa_cont n (u : R) : continuous (fun u => cos u ^ 2 * sin u ^ (2 * n)) u.
Proof. apply cont_ex. auto_derive. easy. Qed.
Lemma Wa_is n : is_RInt (fun u => cos u ^ 2 * sin u ^ (2 * n)) (- h) h (Wa n).
Proof. apply is_int. apply Wa_cont. Qed.
Lemma Wa_0 : Wa 0 = PI / 2.
Proof.
  apply (int_unique (fun u => cos u ^ 2 * sin u ^ (2 * 0)) (- h) h); [apply Wa_is|].
  set (F := fun u => (u + sin u * cos u) / 2).
  replace (PI / 2) with (minus (F h) (F (- h))).
  2:{ unfold F, minus, plus, opp; cbn. rewrite cos_h, cos_mh. unfold h. field. }
  apply (is_RInt_derive (V := R_CompleteNormedModule) F).
  - intros u _. unfold F. auto_derive; [easy|]. assert (C := sin2_cos2 u). unfold Rsqr in C. match goal with |- @eq _ ?x ?y => change (@eq R x y) end. transitivity (cos u * cos u); [lra|]. match goal with |- @eq _ ?x ?y => change (@eq R x y) end. rewrite Nat.mul_0_r. ring.
  - intros u _. apply Wa_cont.
Qed.
Lemma Wa_S n : Wa (S n) = Wa n * ((2 * INR n + 1) / (2 * INR n + 4)).
Proof.
  assert (Hn := pos_INR n).
  assert (E : (2 * INR n + 1) * Wa n + - (2 * INR n + 4) * Wa (S n) = 0).
  { apply (int_unique (fun u => (2 * INR n + 1) * (cos u ^ 2 * sin u ^ (2 * n)) + - (2 * INR n + 4) * (cos u ^ 2 * sin u ^ (2 * S n))) (- h) h).
    - apply int_add; apply int_scal; apply Wa_is.
    - set (F := fun u => sin u ^ (2 * n + 1) * cos u ^ 3). 
      replace 0 with (minus (F h) (F (- h))) by (unfold F, minus, plus, opp; cbn -[Nat.mul]; rewrite cos_h, cos_mh; ring).
      apply (is_RInt_derive (V := R_CompleteNormedModule) F).
      + intros u _. eapply is_derive_eq; [apply (der_mul (fun u => sin u ^ (2 * n + 1)) (fun u => cos u ^ 3)); apply is_derive_pow; [apply is_derive_sin|apply is_derive_cos]|].
        replace (2 * S n)%nat with (2 * n + 2)%nat by lia. replace (Init.Nat.pred (2 * n + 1)) with (2 * n)%nat by lia. change (pred 3) with 2%nat.
        rewrite plus_INR, mult_INR. change (INR 2) with 2. change (INR 1) with 1. replace (INR 3) with 3 by (cbn [INR]; ring). rewrite !pow_add.
        assert (C := sin2_cos2 u). unfold Rsqr in C. replace (cos u ^ 3) with (cos u * cos u * cos u) by ring. 
        set (s := sin u) in *. set (c := cos u) in *. generalize (s ^ (2 * n)). intros X. generalize (INR n). intros K.
        replace ((2 * K + 1) * c * X * (c * c * c) + X * s ^ 1 * (3 * - s * c ^ 2)) with (c ^ 2 * X * ((2 * K + 1) * (c * c) - 3 * s * s)) by ring.
        replace (c * c) with (1 - s * s) by lra. ring.
      + intros u _. apply add_cont; apply scal_cont; apply Wa_cont. }
  apply Rmult_eq_reg_r with (2 * INR n + 4); [|lra]. unfold Rdiv. rewrite Rmult_assoc, Rmult_assoc, Rinv_l, Rmult_1_r by lra. lra.
Qed.
Lemma Wa_pos n : 0 < Wa n.
Proof.
  induction n; [rewrite Wa_0; assert (H := PI_RGT_0); lra|]. rewrite Wa_S. assert (Hn := pos_INR n). apply Rmult_lt_0_compat; [easy|]. apply Rdiv_lt_0_compat; lra.
Qed.

(* integrals of the partial sums *)
Fixpoint js (m : R) (i n : nat) : R := match n with O => Wa i | S k => js m i k + sc (S k) * m ^ S k * Wa (i + S k) end.
Lemma js_is m i n : is_RInt (fun u => cos u ^ 2 * sin u ^ (2 * i) * sp n (m * sin u ^ 2)) (- h) h (js m i n).
Proof.
  induction n as [|n IH].
  - eapply int_ext; [|apply Wa_is]. intros u. cbn [sp]. ring.
  - cbn [js]. eapply int_ext; [|apply int_add; [exact IH|apply int_scal; apply Wa_is]].
    intros u. cbv beta. cbn [sp]. rewrite Nat.mul_add_distr_l, pow_add, (pow_mult (sin u) 2 (S n)), Rpow_mult_distr. ring.
Qed.
Lemma js_J m i n : 0 <= m <= 1 -> (1 <= n)%nat -> Rabs (js m i n - J m i) <= se n * Wa i.
Proof.
  intros Hm Hn. assert (HH := h_pos).
  assert (I : is_RInt (fun u => cos u ^ 2 * sin u ^ (2 * i) * sp n (m * sin u ^ 2) + -1 * (cos u ^ 2 * sin u ^ (2 * i) * D m u)) (- h) h (js m i n + -1 * J m i)).
  { apply int_add; [apply js_is|apply int_scal; apply J_is]. }
  assert (B : forall u, 0 <= cos u ^ 2 * sin u ^ (2 * i) * sp n (m * sin u ^ 2) + -1 * (cos u ^ 2 * sin u ^ (2 * i) * D m u) <= se n * (cos u ^ 2 * sin u ^ (2 * i))).
  { intros u. assert (S1 := sin2_le u). assert (S2 : 0 <= m * sin u ^ 2 <= 1) by nra. assert (Bn := sp_bounds n (m * sin u ^ 2) Hn S2). unfold D.
    assert (W0 : 0 <= cos u ^ 2 * sin u ^ (2 * i)). { rewrite pow_mult. apply Rmult_le_pos; [apply pow2_ge_0|]. apply pow_le. apply pow2_ge_0. }
    set (w := cos u ^ 2 * sin u ^ (2 * i)) in *. set (a := sp n _) in *. set (d := sqrt _) in *. nra. }
  assert (L : 0 <= js m i n + -1 * J m i).
  { apply (is_RInt_le (fun _ => 0) (fun u => cos u ^ 2 * sin u ^ (2 * i) * sp n (m * sin u ^ 2) + -1 * (cos u ^ 2 * sin u ^ (2 * i) * D m u)) (- h) h 0); [lra| |exact I|intros; apply B].
    assert (K := is_RInt_const (V := R_NormedModule) (- h) h 0). change (is_RInt (fun _ : R => 0) (- h) h ((h - - h) * 0)) in K. now rewrite Rmult_0_r in K. }
  assert (U : js m i n + -1 * J m i <= se n * Wa i).
  { apply (is_RInt_le (fun u => cos u ^ 2 * sin u ^ (2 * i) * sp n (m * sin u ^ 2) + -1 * (cos u ^ 2 * sin u ^ (2 * i) * D m u)) (fun u => se n * (cos u ^ 2 * sin u ^ (2 * i))) (- h) h); [lra|exact I|apply int_scal; apply Wa_is|intros; apply B]. }
  rewrite Rabs_pos_eq; lra.
Qed.
Lemma sc_rising n : sc n = rising (- (1 / 2)) n / INR (fact n).
Proof.
  induction n as [|n IH]; [cbn; field|]. cbn [sc rising]. rewrite IH. change (fact (S n)) with (S n * fact n)%nat. rewrite mult_INR, S_INR.
  assert (H := INR_fact_neq_0 n). assert (Hn := pos_INR n). field. lra.
Qed.
Lemma rising_pos a n : 0 < a -> 0 < rising a n.
Proof. intros Ha. induction n; cbn; [lra|]. assert (Hn := pos_INR n). apply Rmult_lt_0_compat; lra. Qed.
Lemma Wa_rising i n : Wa (i + n) = Wa i * (rising (INR i + 1 / 2) n / rising (INR i + 2) n).
Proof.
  assert (Hi := pos_INR i). induction n as [|n IH].
  - rewrite Nat.add_0_r. cbn [rising]. field.
  - rewrite Nat.add_succ_r, Wa_S, IH. cbn [rising]. assert (P := rising_pos (INR i + 2) n ltac:(lra)). assert (Hn := pos_INR n). rewrite plus_INR. field. lra.
Qed.
Lemma js_series m i n : js m i n = Wa i * sum_n (fun n => rising (- (1 / 2)) n * rising (INR i + 1 / 2) n / (rising (INR i + 2) n * INR (fact n)) * m ^ n) n.
Proof.
  assert (Hi := pos_INR i). induction n as [|n IH].
  - rewrite sum_O. cbn [js rising pow fact INR]. field.
  - rewrite sum_Sn. cbn [js]. rewrite IH, Wa_rising, sc_rising. assert (P := rising_pos (INR i + 2) (S n) ltac:(lra)). assert (H := INR_fact_neq_0 (S n)).
    unfold plus; cbn [AbelianGroup.sort]; cbn -[rising fact pow sum_n]. field. lra.
Qed.
Lemma js_lim m i : 0 <= m <= 1 -> is_lim_seq (js m i) (J m i).
Proof.
  intros Hm. apply is_lim_seq_spec. intros eps. destruct (se_lim (eps / Wa i)) as (N & HN); [apply Rdiv_lt_0_compat; [apply cond_pos|apply Wa_pos]|].
    exists (S N). intros n Hn. eapply Rle_lt_trans; [apply js_J; [easy|lia]|]. specialize (HN n ltac:(lia)). assert (P := Wa_pos i).
    apply Rmult_lt_compat_r with (r := Wa i) in HN; [|easy]. unfold Rdiv in HN. rewrite Rmult_assoc, Rinv_l, Rmult_1_r in HN by lra. exact HN.
Qed.
Lemma J_hyp m i F : 0 <= m <= 1 -> is_hyp2f1 (- (1 / 2)) (INR i + 1 / 2) (INR i + 2) m F -> J m i = Wa i * F.
Proof.
  intros Hm H. unfold is_hyp2f1, is_series in H.
  assert (L1 : is_lim_seq (js m i) (Wa i * F)).
  { eapply is_lim_seq_ext; [intros n; symmetry; apply js_series|]. apply (is_lim_seq_scal_l _ (Wa i) F). exact H. }
  assert (L2 := js_lim m i Hm).
  apply is_lim_seq_unique in L1. apply is_lim_seq_unique in L2. rewrite L1 in L2. now injection L2.
Qed.

(* the series converges on [0, 1] *)
Lemma J_hyp_ex m i : 0 <= m <= 1 -> is_hyp2f1 (- (1 / 2)) (INR i + 1 / 2) (INR i + 2) m (J m i / Wa i).
Proof.
  intros Hm. assert (P := Wa_pos i). unfold is_hyp2f1, is_series.
  assert (L : is_lim_seq (fun n => / Wa i * js m i n) (/ Wa i * J m i)) by (apply (is_lim_seq_scal_l _ (/ Wa i) (J m i)); now apply js_lim).
  replace (J m i / Wa i) with (/ Wa i * J m i) by (field; lra). refine (is_lim_seq_ext _ _ _ _ L). intros n. rewrite js_series. set (s := sum_n _ n). clearbody s.
  match goal with |- @eq _ ?x ?y => change (@eq R x y) end. field. lra.
Qed.
(* two combinations that vanish for a circular hole and are negative otherwise *)
Lemma js_22 m n : 0 <= m -> 4 * js m 1 n - js m 0 n <= 0.
Proof.
  intros Hm. induction n as [|n IH].
  - cbn [js]. rewrite (Wa_S 0). cbn [INR]. lra.
  - cbn [js]. change (1 + S n)%nat with (S (S n)). change (0 + S n)%nat with (S n). assert (S1 := sc_neg n). assert (P := Wa_pos (S n)). assert (Hn := pos_INR (S n)). rewrite (Wa_S (S n)).
    assert (P1 : 0 < m ^ S n \/ m ^ S n = 0). { assert (0 <= m ^ S n) by (apply pow_le; lra). lra. }
    set (w := Wa (S n)) in *. set (s := sc (S n)) in *. set (p := m ^ S n) in *. set (N := INR (S n)) in *.
    assert (E : 4 * (s * p * (w * ((2 * N + 1) / (2 * N + 4)))) - s * p * w = s * (p * (w * (6 * N / (2 * N + 4))))) by (field; lra).
    assert (Q : 0 <= p * (w * (6 * N / (2 * N + 4)))). { apply Rmult_le_pos; [lra|]. apply Rmult_le_pos; [lra|]. apply Rdiv_le_0_compat; lra. }
    assert (s * (p * (w * (6 * N / (2 * N + 4)))) <= 0) by (clearbody w s p N; clear - Q S1; nra). lra.
Qed.
Lemma js_44 m n : 0 <= m -> 16 * js m 2 n - 12 * js m 1 n + js m 0 n <= 0.
Proof.
  intros Hm. induction n as [|n IH].
  - cbn [js]. rewrite (Wa_S 1), (Wa_S 0). cbn [INR]. lra.
  - cbn [js]. change (2 + S n)%nat with (S (S (S n))). change (1 + S n)%nat with (S (S n)). change (0 + S n)%nat with (S n). assert (S1 := sc_neg n). assert (P := Wa_pos (S n)). assert (Hn := pos_INR n).
    rewrite (Wa_S (S (S n))), (Wa_S (S n)), !S_INR.
    assert (P1 : 0 <= m ^ S n) by (apply pow_le; lra).
    set (w := Wa (S n)) in *. set (s := sc (S n)) in *. set (p := m ^ S n) in *. set (N := INR n) in *.
    assert (E : 16 * (s * p * (w * ((2 * (N + 1) + 1) / (2 * (N + 1) + 4)) * ((2 * (N + 1 + 1) + 1) / (2 * (N + 1 + 1) + 4)))) - 12 * (s * p * (w * ((2 * (N + 1) + 1) / (2 * (N + 1) + 4)))) + s * p * w
      = s * (p * (w * (20 * (N + 1) * N / ((2 * N + 6) * (2 * N + 8)))))) by (field; lra).
    assert (Q : 0 <= p * (w * (20 * (N + 1) * N / ((2 * N + 6) * (2 * N + 8))))). { apply Rmult_le_pos; [lra|]. apply Rmult_le_pos; [lra|]. apply Rdiv_le_0_compat; [|apply Rmult_lt_0_compat; lra]. apply Rmult_le_pos; lra. }
    assert (s * (p * (w * (20 * (N + 1) * N / ((2 * N + 6) * (2 * N + 8))))) <= 0) by (clearbody w s p N; clear - Q S1; nra). lra.
Qed.
Lemma lim_le0 (u : nat -> R) (l : R) : is_lim_seq u l -> (forall n, u n <= 0) -> l <= 0.
Proof. intros H B. exact (is_lim_seq_le u (fun _ => 0) l 0 B H (is_lim_seq_const 0)). Qed.
Lemma J_22 m : 0 <= m <= 1 -> 4 * J m 1 - J m 0 <= 0.
Proof.
  intros Hm. apply (lim_le0 (fun n => 4 * js m 1 n - js m 0 n)); [|intros; apply js_22; lra].
  apply is_lim_seq_minus'; [apply (is_lim_seq_scal_l _ 4 (J m 1))|]; now apply js_lim.
Qed.
Lemma J_44 m : 0 <= m <= 1 -> 16 * J m 2 - 12 * J m 1 + J m 0 <= 0.
Proof.
  intros Hm. apply (lim_le0 (fun n => 16 * js m 2 n - 12 * js m 1 n + js m 0 n)); [|intros; apply js_44; lra].
  apply is_lim_seq_plus'; [apply is_lim_seq_minus'; [apply (is_lim_seq_scal_l _ 16 (J m 2))|apply (is_lim_seq_scal_l _ 12 (J m 1))]|]; now apply js_lim.
Qed.
