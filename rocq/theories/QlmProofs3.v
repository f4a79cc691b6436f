(* The analytic moments of qlm.py are volume integrals: prisms over triangles, tetrahedra. *)
From Verif Require Export QlmProofs2.
From Verif Require Import ClebschGordanProofs TranslationsProofs.
From Verif Require Import Cplx.
Open Scope C_scope.

(* monomials *)
Definition mono (a b c : Z) (x y z : R) : C := RtoC (pw x a * pw y b) * dp (RtoC z) c.
Definition coef (m k p j : Z) : C :=
  sgnC (m + k) * sgnC p * cpow Ci (Z.to_nat (p + j)) * RtoC (/ (pw 2 (m + 2 * k) * (zfact (m + k - p) * zfact p * zfact (k - j) * zfact j))).
Lemma dpA x y n : dp (A_ x y) n = zsum 0 (n + 1) (fun p => sgnC n * sgnC p * cpow Ci (Z.to_nat p) * RtoC (pw x (n - p) * pw y p / (pw 2 n * (zfact (n - p) * zfact p)))).
Proof.
  replace (A_ x y) with (- RtoC (x / 2) + Ci * RtoC (y / 2)) by (apply C_eq; unfold A_; simpl; field).
  rewrite dp_add. apply zsum_ext. intros p Hp. rewrite dp_opp, dp_scal, !dp_RtoC, sgnC_sub by lia.
  transitivity (sgnC n * sgnC p * cpow Ci (Z.to_nat p) * (RtoC (pw (x / 2) (n - p) / zfact (n - p)) * RtoC (pw (y / 2) p / zfact p))); [ring|].
  rewrite <- RtoC_mult. do 2 f_equal. rewrite !pw_div by (lia || lra).
  replace n with (n - p + p)%Z at 5 by ring. rewrite (pw_add_nonneg 2 (n - p) p) by lia.
  assert (F1 := zfact_neq0 p). assert (F2 := zfact_neq0 (n - p)). assert (F3 := pw2_neq0 p). assert (F4 := pw2_neq0 (n - p)).
  field. repeat split; assumption.
Qed.
Lemma dpB x y n : dp (B_ x y) n = zsum 0 (n + 1) (fun p => cpow Ci (Z.to_nat p) * RtoC (pw x (n - p) * pw y p / (pw 2 n * (zfact (n - p) * zfact p)))).
Proof.
  replace (B_ x y) with (RtoC (x / 2) + Ci * RtoC (y / 2)) by (apply C_eq; unfold B_; simpl; field).
  rewrite dp_add. apply zsum_ext. intros p Hp. rewrite dp_scal, !dp_RtoC by lia.
  transitivity (cpow Ci (Z.to_nat p) * (RtoC (pw (x / 2) (n - p) / zfact (n - p)) * RtoC (pw (y / 2) p / zfact p))); [ring|].
  rewrite <- RtoC_mult. do 2 f_equal. rewrite !pw_div by (lia || lra).
  replace n with (n - p + p)%Z at 5 by ring. rewrite (pw_add_nonneg 2 (n - p) p) by lia.
  assert (F1 := zfact_neq0 p). assert (F2 := zfact_neq0 (n - p)). assert (F3 := pw2_neq0 p). assert (F4 := pw2_neq0 (n - p)).
  field. repeat split; assumption.
Qed.
Lemma zsum_mul a b c d (f g : Z -> C) : zsum a b f * zsum c d g = zsum a b (fun i => zsum c d (fun j => f i * g j)).
Proof. rewrite <- zsum_scal_r. apply zsum_ext. intros i Hi. now rewrite zsum_scal_l. Qed.
Lemma half_range l m : (0 <= m <= l)%Z -> (0 <= (l - m) / 2)%Z /\ (2 * ((l - m) / 2) <= l - m)%Z.
Proof.
  intros Hm. assert (Hd := Z.div_mod (l - m) 2 ltac:(lia)). assert (Hb := Z.mod_pos_bound (l - m) 2 ltac:(lia)). lia.
Qed.
Lemma solid_mono l m x y z : (0 <= m <= l)%Z -> solid l m x y z =
  zsum 0 ((l - m) / 2 + 1) (fun k => zsum 0 (m + k + 1) (fun p => zsum 0 (k + 1) (fun j =>
    coef m k p j * mono (m + 2 * k - (p + j)) (p + j) (l - m - 2 * k) x y z))).
Proof.
  intros Hm. rewrite solid_terms by assumption. destruct (half_range l m Hm) as [Hr Hr']. apply zsum_ext. intros k Hk.
  rewrite dpA, dpB, zsum_mul, <- zsum_scal_r. apply zsum_ext. intros p Hp. rewrite <- zsum_scal_r. apply zsum_ext. intros j Hj.
  unfold coef, mono. replace (m + 2 * k - (p + j))%Z with ((m + k - p) + (k - j))%Z by ring. rewrite !(pw_add_nonneg _ (m + k - p)), (pw_add_nonneg y p j) by lia.
  replace (m + 2 * k)%Z with (m + k + k)%Z by ring. rewrite (pw_add_nonneg 2 (m + k) k) by lia.
  rewrite (Z2Nat.inj_add p j), cpow_add by lia.
  transitivity (sgnC (m + k) * sgnC p * (cpow Ci (Z.to_nat p) * cpow Ci (Z.to_nat j)) * dp (RtoC z) (l - m - 2 * k) *
   (RtoC (pw x (m + k - p) * pw y p / (pw 2 (m + k) * (zfact (m + k - p) * zfact p))) * RtoC (pw x (k - j) * pw y j / (pw 2 k * (zfact (k - j) * zfact j))))); [ring|].
  match goal with |- _ = ?a * RtoC ?b * (RtoC ?c * ?d) => transitivity (a * d * (RtoC b * RtoC c)); [|ring] end.
  rewrite <- !RtoC_mult. match goal with |- ?a * RtoC ?b = ?a' * RtoC ?b' => replace b with b'; [ring|] end.
  assert (F1 := zfact_neq0 p). assert (F2 := zfact_neq0 (m + k - p)). assert (F3 := zfact_neq0 j). assert (F4 := zfact_neq0 (k - j)).
  assert (F5 := pw2_neq0 (m + k)). assert (F6 := pw2_neq0 k). field. repeat split; assumption.
Qed.
Definition mono_int (mu : Z -> Z -> Z -> R) (l m : Z) : C :=
  zsum 0 ((l - m) / 2 + 1) (fun k => zsum 0 (m + k + 1) (fun p => zsum 0 (k + 1) (fun j =>
    coef m k p j * RtoC (mu (m + 2 * k - (p + j)) (p + j) (l - m - 2 * k))%Z))).
Lemma mono_solid (B : body) mu l m : regular B ->
  (forall a b c, (0 <= a)%Z -> (0 <= b)%Z -> (0 <= c)%Z -> B (mono a b c) (RtoC (mu a b c))) -> (0 <= m <= l)%Z ->
  B (fun x y z => solid l m x y z) (mono_int mu l m).
Proof.
  intros RB H Hm. destruct (half_range l m Hm) as [Hr Hr'].
  eapply (reg_ext _ RB); [intros x y z; symmetry; apply solid_mono; assumption|].
  apply (reg_zsum B 0 _ (fun k x y z => zsum 0 (m + k + 1) (fun p => zsum 0 (k + 1) (fun j => coef m k p j * mono (m + 2 * k - (p + j)) (p + j) (l - m - 2 * k) x y z)))); [assumption|lia|].
  intros k Hk.
  apply (reg_zsum B 0 _ (fun p x y z => zsum 0 (k + 1) (fun j => coef m k p j * mono (m + 2 * k - (p + j)) (p + j) (l - m - 2 * k) x y z))); [assumption|lia|].
  intros p Hp.
  apply (reg_zsum B 0 _ (fun j x y z => coef m k p j * mono (m + 2 * k - (p + j)) (p + j) (l - m - 2 * k) x y z)); [assumption|lia|].
  intros j Hj. apply (reg_scal B RB). apply H; lia.
Qed.
Lemma mono_000 (B : body) mu : regular B -> (forall a b c, (0 <= a)%Z -> (0 <= b)%Z -> (0 <= c)%Z -> B (mono a b c) (RtoC (mu a b c))) ->
  B (fun _ _ _ => 1) (RtoC (mu 0 0 0)%Z).
Proof.
  intros RB H. apply (reg_ext B RB (mono 0 0 0)); [|apply H; lia]. intros. unfold mono. rewrite !pw_0, dp_0. rewrite Rmult_1_l. ring.
Qed.

(* ---- triangular prism ---------------------------------------------------------- *)
Lemma regular_plain a b lo1 hi1 lo2 hi2 : regular (fun f I => is_int3 a b lo1 hi1 lo2 hi2 f I).
Proof. apply (regular_int3 _ _ _ _ _ _ (fun f => f)); intros; auto. Qed.
Lemma regular_swap a b lo1 hi1 lo2 hi2 : regular (fun f I => is_int3 a b lo1 hi1 lo2 hi2 (fun w u v => f u v w) I).
Proof. apply (regular_int3 _ _ _ _ _ _ (fun f w u v => f u v w)); intros; auto. Qed.
Lemma regular_tri H d y1 y2 : regular (triangular_prism H d y1 y2). Proof. apply regular_plain. Qed.
Lemma regular_box H a b : regular (box H a b). Proof. apply regular_plain. Qed.
Lemma regular_corner x y z : regular (corner_tetrahedron x y z). Proof. apply regular_plain. Qed.
Lemma regular_apex x y1 y2 z : regular (apex_tetrahedron x y1 y2 z). Proof. apply regular_swap. Qed.
Lemma regular_pyramid x y z : regular (rect_pyramid x y z). Proof. apply regular_swap. Qed.

Definition mu_tri (H d y1 y2 : R) (a b c : Z) : R :=
  (pw d (a + 1) * (pw y2 (b + 1) - pw y1 (b + 1)) / (IZR (b + 1) * IZR (a + b + 2)) * zval H c)%R.
Lemma tri_mono H d y1 y2 a b c : d <> 0%R -> (0 <= a)%Z -> (0 <= b)%Z -> (0 <= c)%Z ->
  triangular_prism H d y1 y2 (mono a b c) (RtoC (mu_tri H d y1 y2 a b c)).
Proof.
  intros Hd Ha Hb Hc. unfold triangular_prism, mono.
  exists (fun x y => RtoC (pw x a * zval H c) * RtoC (pw y b)),
    (fun x => RtoC (zval H c * (pw y2 (b + 1) - pw y1 (b + 1)) / (IZR (b + 1) * pw d (b + 1))) * RtoC (pw x (a + b + 1))).
  split; [|split].
  - intros x y. eapply is_CInt_val; [|apply is_CInt_scal; apply zint; assumption]. rewrite <- !RtoC_mult. f_equal. ring.
  - intros x. eapply is_CInt_val; [|apply is_CInt_scal; apply rint; assumption]. rewrite <- !RtoC_mult. f_equal.
    replace (y1 * x / d)%R with (y1 * (x / d))%R by (unfold Rdiv; ring). replace (y2 * x / d)%R with (y2 * (x / d))%R by (unfold Rdiv; ring). rewrite !(pw_mult _ (x / d)) by lia. rewrite !pw_div by (lia || assumption).
    replace (a + b + 1)%Z with (a + (b + 1))%Z by ring. rewrite (pw_add_nonneg x a) by lia.
    field. split; [now apply pw_neq0|apply IZR_pos_neq0; lia].
  - eapply is_CInt_val; [|apply is_CInt_scal; apply rint; lia]. rewrite <- !RtoC_mult. f_equal. unfold mu_tri.
    replace (a + b + 1 + 1)%Z with (a + b + 2)%Z by ring. rewrite pw_zero by lia.
    assert (E : pw d (a + b + 2) = (pw d (a + 1) * pw d (b + 1))%R) by (rewrite <- pw_add_nonneg by lia; f_equal; ring). rewrite E.
    field. split; [|split]; [apply IZR_pos_neq0; lia|apply IZR_pos_neq0; lia|now apply pw_neq0].
Qed.
Lemma tri_volume H d y1 y2 : mu_tri H d y1 y2 0 0 0 = (H * d * (y2 - y1) / 2)%R.
Proof.
  unfold mu_tri, zval. change (0 + 1)%Z with 1%Z. change (0 + 0 + 2)%Z with 2%Z. change (Z.even 0) with true. cbv iota.
  rewrite !pw_1, !pw_0, zfact_1. field.
Qed.
Lemma zcomb_fact n k : (0 <= k <= n)%Z -> zcomb n k = (zfact n / (zfact k * zfact (n - k)))%R.
Proof.
  intros H. unfold zcomb. destruct (Z.ltb_spec k 0), (Z.ltb_spec n 0), (Z.ltb_spec n k); try lia. reflexivity.
Qed.
(* push all the factors inside the sums *)
Ltac push := repeat (rewrite <- !zsum_scal_l || rewrite <- !zsum_scal_r).
Lemma tri_entry_int mass H d y1 y2 l m : (0 <= m <= l)%Z -> H <> 0%R -> d <> 0%R -> y1 <> y2 ->
  tri_prism_entry mass H d y1 y2 l m
  = RtoC (mass / (H * d * (y2 - y1) / 2)) * (RtoC (nrm l m) * mono_int (mu_tri H d y1 y2) l m).
Proof.
  intros Hm HH Hd Hy. unfold tri_prism_entry, mono_int. destruct (half_range l m Hm) as [Hr Hr'].
  assert (Hy' : (y2 - y1 <> 0)%R) by (intros ?; apply Hy; lra).
  destruct (Z.even (l - m)) eqn:Ev.
  - unfold Cdiv. rewrite <- !zsum_scal_r, <- !zsum_scal_l. apply zsum_ext. intros k Hk.
    replace (l - m - 2 * k + 2)%Z with (l - m - 2 * k + 1 + 1)%Z by ring. rewrite exp3, nrm_split by lia.
    rewrite <- !zsum_scal_r, <- !zsum_scal_l, <- !zsum_scal_r. apply zsum_ext. intros p Hp. rewrite <- !zsum_scal_l, <- !zsum_scal_r, <- !zsum_scal_l, <- !zsum_scal_r. apply zsum_ext. intros j Hj.
    rewrite !zcomb_fact by lia. unfold coef, mu_tri, zval. rewrite even_sub2, Ev.
    replace (l - 2 * k - m)%Z with (l - m - 2 * k)%Z by ring. replace (2 * k + m + 2)%Z with (m + 2 * k + 2)%Z by ring. replace (2 * k + m)%Z with (m + 2 * k)%Z by ring.
    replace (k + m)%Z with (m + k)%Z by ring. replace (m + 2 * k - (p + j) + (p + j) + 2)%Z with (m + 2 * k + 2)%Z by ring.
    set (sg := sgnC _). set (sp := sgnC _). set (ci := cpow _ _).
    rewrite <- RtoC_inv by (repeat (apply Rmult_integral_contrapositive_currified); apply zfact_neq0).
    match goal with |- sg * RtoC ?a1 * (RtoC ?a2 * (RtoC ?a3 * (ci * sp * RtoC ?a4) * RtoC ?a5) * RtoC ?a6) * RtoC ?a7 = RtoC ?b1 * (RtoC ?b2 * (sg * sp * ci * RtoC ?b3 * RtoC ?b4)) =>
      transitivity (sg * sp * ci * RtoC (a1 * (a2 * (a3 * (a4 * (a5 * (a6 * a7)))))));
       [rewrite (RtoC_mult a1), (RtoC_mult a2), (RtoC_mult a3), (RtoC_mult a4), (RtoC_mult a5), (RtoC_mult a6); ring|
        transitivity (sg * sp * ci * RtoC (b1 * (b2 * (b3 * b4)))); [|rewrite (RtoC_mult b1), (RtoC_mult b2), (RtoC_mult b3); ring]] end.
    f_equal. f_equal. unfold factor. rewrite pw2_pred, (pw2_l l m k), (pw_add_nonneg H _ 1), pw_1 by lia.
    rewrite (pw_add_nonneg d _ 1), pw_1 by lia. rewrite (pw_opp d) by assumption.
    replace (m + 2 * k)%Z with (m + 2 * k - (p + j) + (p + j))%Z at 1 by ring. rewrite (pw_add_nonneg d) by lia.
    assert (F1 := zfact_neq0 k). assert (F2 := zfact_neq0 (m + k)). assert (F3 := zfact_neq0 (l - m - 2 * k + 1)).
    assert (F4 := pw2_neq0 (m + 2 * k)). assert (F5 := pw2_neq0 (l - m - 2 * k)). assert (F6 := IZR_pos_neq0 (m + 2 * k + 2) ltac:(lia)).
    assert (F7 := zfact_neq0 j). assert (F8 := zfact_neq0 p). assert (F9 := zfact_neq0 (k - j)). assert (F10 := zfact_neq0 (m + k - p)).
    assert (F11 := pw_neq0 d (p + j) Hd). assert (F12 := IZR_pos_neq0 (p + j + 1) ltac:(lia)).
    field. repeat split; assumption.
  - rewrite zsum_0; [ring|]. intros k Hk. apply zsum_0. intros p Hp. apply zsum_0. intros j Hj. unfold mu_tri.
    rewrite zval_odd by now rewrite even_sub2. rewrite Rmult_0_r. ring.
Qed.
Lemma body_from_entry (B : body) mu mass L f : (0 <= L)%Z -> regular B ->
  (forall a b c, (0 <= a)%Z -> (0 <= b)%Z -> (0 <= c)%Z -> B (mono a b c) (RtoC (mu a b c))) -> mu 0%Z 0%Z 0%Z <> 0%R ->
  (forall l m, (0 <= m <= l)%Z -> f l m = RtoC (mass / mu 0%Z 0%Z 0%Z) * (RtoC (nrm l m) * mono_int mu l m)) ->
  deg (Arr.reflect (fill 0 (L + 1) L f (zeros L))) = L /\ moments_of_body (Arr.reflect (fill 0 (L + 1) L f (zeros L))) mass B.
Proof.
  intros HL RB H HV Hf. split; [rewrite deg_reflect; apply deg_fill; lia|].
  apply (assemble B mass (mu 0 0 0)%Z _ f RB HV); [now apply mono_000|now apply half_fill|].
  intros l m Hm Hl. exists (RtoC (nrm l m) * mono_int mu l m). split; [|now apply Hf].
  apply (reg_scal B RB (RtoC (nrm l m)) (fun x y z => solid l m x y z)). now apply mono_solid.
Qed.
Lemma tri_prism_body L mass H d y1 y2 q : (0 <= L)%Z -> tri_prism L mass H d y1 y2 = Ok q ->
  deg q = L /\ moments_of_body q mass (triangular_prism H d y1 y2).
Proof.
  intros HL E. unfold tri_prism in E.
  destruct (_ || _)%bool eqn:G; [discriminate|]. apply Bool.orb_false_elim in G. destruct G as [G G3].
  apply Bool.orb_false_elim in G. destruct G as [G1 G2]. apply rle_false in G1. apply req_false in G2, G3. injection E as <-.
  assert (HV : (H * d * (y2 - y1) / 2 <> 0)%R).
  { unfold Rdiv. repeat (apply Rmult_integral_contrapositive_currified); try lra; try assumption. }
  apply (body_from_entry _ (mu_tri H d y1 y2)); [assumption|apply regular_tri|intros; now apply tri_mono|now rewrite tri_volume|].
  intros l m Hm. rewrite tri_volume. apply tri_entry_int; (assumption || lra).
Qed.

(* ---- corner tetrahedron --------------------------------------------------------- *)
Definition mu_corner (x y z : R) (a b c : Z) : R :=
  (zfact a * zfact b * (pw x (a + 1) * pw y (b + 1) * pw z (c + 1)) / zfact (a + b + c + 3))%R.
(* int_0^Y v^b ((Y - v)/y)^n dv *)
Lemma beta_scaled Y y b n : y <> 0%R -> (0 <= b)%Z -> (0 <= n)%Z ->
  is_CInt (fun v => RtoC (pw v b) * dp (RtoC ((Y - v) / y)) n) 0 Y (RtoC (zfact b * pw Y (b + n + 1) / (pw y n * zfact (b + n + 1)))).
Proof.
  intros Hy Hb Hn. apply (is_CInt_ext (fun v => RtoC (zfact b / pw y n) * (dp (RtoC v) b * dp (RtoC (Y - v)) n))).
  { intros v. rewrite !dp_RtoC, pw_div by assumption. rewrite <- !RtoC_mult. f_equal.
    assert (F1 := zfact_neq0 b). assert (F2 := zfact_neq0 n). assert (F3 := pw_neq0 y n Hy). field. repeat split; assumption. }
  eapply is_CInt_val; [|apply is_CInt_scal; apply is_CInt_beta; assumption].
  destruct (Z.ltb_spec b 0); [lia|]. rewrite dp_RtoC, <- RtoC_mult by lia. f_equal.
  assert (F2 := zfact_neq0 (b + n + 1)). assert (F3 := pw_neq0 y n Hy). field. repeat split; assumption.
Qed.
Lemma corner_mono x y z a b c : x <> 0%R -> y <> 0%R -> (0 <= a)%Z -> (0 <= b)%Z -> (0 <= c)%Z ->
  corner_tetrahedron x y z (mono a b c) (RtoC (mu_corner x y z a b c)).
Proof.
  intros Hx Hy Ha Hb Hc. unfold corner_tetrahedron, mono.
  exists (fun u v => RtoC (pw u a * pw z (c + 1)) * (RtoC (pw v b) * dp (RtoC ((y * (1 - u / x) - v) / y)) (c + 1))),
    (fun u => RtoC (zfact b * pw z (c + 1) * pw y (b + 1)) * (RtoC (pw u a) * dp (RtoC ((x - u) / x)) (b + c + 2))).
  split; [|split].
  - intros u v. apply (is_CInt_ext (fun w => RtoC (pw u a * pw v b) * dp (RtoC w) c)); [reflexivity|].
    eapply is_CInt_val; [|apply is_CInt_scal; apply is_CInt_dp]. rewrite (dp_zero (c + 1)) by lia.
    replace (z * (1 - u / x - v / y))%R with (z * ((y * (1 - u / x) - v) / y))%R by (field; split; assumption).
    rewrite !dp_RtoC, pw_mult by lia. rewrite <- !RtoC_mult, <- RtoC_minus, <- RtoC_mult. f_equal. field. apply zfact_neq0.
  - intros u. eapply is_CInt_val; [|apply is_CInt_scal; apply beta_scaled; [assumption|lia|lia]].
    replace (b + (c + 1) + 1)%Z with (b + c + 2)%Z by ring.
    replace (1 - u / x)%R with ((x - u) / x)%R by (field; assumption).
    rewrite dp_RtoC, pw_mult by lia. rewrite <- !RtoC_mult. f_equal.
    assert (E : pw y (b + c + 2) = (pw y (b + 1) * pw y (c + 1))%R) by (rewrite <- pw_add_nonneg by lia; f_equal; ring). rewrite E.
    assert (F2 := zfact_neq0 (b + c + 2)). assert (F3 := pw_neq0 y (c + 1) Hy). field. repeat split; assumption.
  - eapply is_CInt_val; [|apply is_CInt_scal; apply beta_scaled; [assumption|lia|lia]].
    rewrite <- !RtoC_mult. f_equal. unfold mu_corner. replace (a + (b + c + 2) + 1)%Z with (a + b + c + 3)%Z by ring.
    assert (E : pw x (a + b + c + 3) = (pw x (a + 1) * pw x (b + c + 2))%R) by (rewrite <- pw_add_nonneg by lia; f_equal; ring). rewrite E.
    assert (F2 := zfact_neq0 (a + b + c + 3)). assert (F3 := pw_neq0 x (b + c + 2) Hx). field. repeat split; assumption.
Qed.
Lemma zfact_3 : zfact 3 = 6%R.
Proof. unfold zfact; change (Z.to_nat 3) with 3%nat; change (fact 3) with 6%nat; rewrite INR_IZR_INZ; reflexivity. Qed.
Lemma corner_volume x y z : mu_corner x y z 0 0 0 = (x * y * z / 6)%R.
Proof.
  unfold mu_corner. change (0 + 1)%Z with 1%Z. change (0 + 0 + 0 + 3)%Z with 3%Z. rewrite !pw_1, zfact_0, zfact_3. field.
Qed.
Lemma tetra_entry_int mass x y z l m : (0 <= m <= l)%Z -> x <> 0%R -> y <> 0%R -> z <> 0%R ->
  tetra_entry mass x y z l m = RtoC (mass / (x * y * z / 6)) * (RtoC (nrm l m) * mono_int (mu_corner x y z) l m).
Proof.
  intros Hm Hx Hy Hz. unfold tetra_entry, mono_int. destruct (half_range l m Hm) as [Hr Hr'].
  rewrite <- !zsum_scal_r, <- !zsum_scal_l. apply zsum_ext. intros k Hk. cbv zeta.
  rewrite nrm_split by lia. rewrite <- !zsum_scal_l, <- !zsum_scal_r. apply zsum_ext. intros p Hp. rewrite <- !zsum_scal_l, <- !zsum_scal_r. apply zsum_ext. intros j Hj.
  unfold coef, mu_corner. replace (l + 4)%Z with (l + 3 + 1)%Z by ring.
  unfold Rminus. rewrite !exp_plus, !exp_Ropp, !exp_plus, !exp_gl.
  replace (m + 2 * k - (p + j) + (p + j) + (l - m - 2 * k) + 3)%Z with (l + 3)%Z by ring.
  replace (l - (m + 2 * k))%Z with (l - m - 2 * k)%Z by ring.
  set (sg := sgnC _). set (sp := sgnC _). set (ci := cpow _ _).
  match goal with |- sg * RtoC ?a1 * (ci * sp * RtoC ?a2 * RtoC ?a3) * RtoC ?a4 = RtoC ?b1 * (RtoC ?b2 * (sg * sp * ci * RtoC ?b3 * RtoC ?b4)) =>
      transitivity (sg * sp * ci * RtoC (a1 * (a2 * (a3 * a4))));
       [rewrite (RtoC_mult a1), (RtoC_mult a2), (RtoC_mult a3); ring|
        transitivity (sg * sp * ci * RtoC (b1 * (b2 * (b3 * b4)))); [|rewrite (RtoC_mult b1), (RtoC_mult b2), (RtoC_mult b3); ring]] end.
  f_equal. f_equal. unfold factor. rewrite !(pw_add_nonneg _ _ 1), !pw_1 by lia.
  assert (F2 := zfact_neq0 (l + 3)). assert (F4 := pw2_neq0 (m + 2 * k)).
  assert (F7 := zfact_neq0 j). assert (F8 := zfact_neq0 p). assert (F9 := zfact_neq0 (k - j)). assert (F10 := zfact_neq0 (m + k - p)).
  field. repeat split; assumption.
Qed.
Lemma tetrahedron_body L mass x y z q : (0 <= L)%Z -> tetrahedron L mass x y z = Ok q ->
  deg q = L /\ moments_of_body q mass (corner_tetrahedron x y z).
Proof.
  intros HL E. unfold tetrahedron in E.
  destruct (_ || _)%bool eqn:G; [discriminate|]. apply Bool.orb_false_elim in G. destruct G as [G G3].
  apply Bool.orb_false_elim in G. destruct G as [G1 G2]. apply rle_false in G1, G2, G3. injection E as <-.
  assert (HV : (x * y * z / 6 <> 0)%R) by (assert (0 < x * y * z)%R by (repeat apply Rmult_lt_0_compat; lra); intros ?; lra).
  apply (body_from_entry _ (mu_corner x y z)); [assumption|apply regular_corner|intros; apply corner_mono; (assumption || lra)|now rewrite corner_volume|].
  intros l m Hm. rewrite corner_volume. apply tetra_entry_int; (assumption || lra).
Qed.

(* ---- apex tetrahedron ------------------------------------------------------------ *)
Definition mu_apex (x y1 y2 z : R) (a b c : Z) : R :=
  (pw x (a + 1) * (pw y2 (b + 1) - pw y1 (b + 1)) * pw z (c + 1) * zfact (a + b + 1) / (IZR (b + 1) * zfact (a + b + c + 3)))%R.
Lemma apex_mono x y1 y2 z a b c : x <> 0%R -> z <> 0%R -> (0 <= a)%Z -> (0 <= b)%Z -> (0 <= c)%Z ->
  apex_tetrahedron x y1 y2 z (mono a b c) (RtoC (mu_apex x y1 y2 z a b c)).
Proof.
  intros Hx Hz Ha Hb Hc. unfold apex_tetrahedron, mono.
  exists (fun w u => RtoC ((pw y2 (b + 1) - pw y1 (b + 1)) / (IZR (b + 1) * pw x (b + 1))) * dp (RtoC w) c * RtoC (pw u (a + b + 1))),
    (fun w => RtoC ((pw y2 (b + 1) - pw y1 (b + 1)) / (IZR (b + 1) * pw x (b + 1)) * pw x (a + b + 2) / IZR (a + b + 2)) * (dp (RtoC w) c * RtoC (pw (1 - w / z) (a + b + 2)))).
  split; [|split].
  - intros w u. apply (is_CInt_ext (fun v => RtoC (pw u a) * dp (RtoC w) c * RtoC (pw v b))); [intros; rewrite RtoC_mult; ring|].
    eapply is_CInt_val; [|apply is_CInt_scal; apply rint; lia].
    replace (y1 * u / x)%R with (y1 * (u / x))%R by (unfold Rdiv; ring). replace (y2 * u / x)%R with (y2 * (u / x))%R by (unfold Rdiv; ring).
    rewrite !(pw_mult _ (u / x)) by lia. rewrite !pw_div by (lia || assumption). replace (a + b + 1)%Z with (a + (b + 1))%Z by ring. rewrite (pw_add_nonneg u a) by lia.
    match goal with |- RtoC ?a * ?d * RtoC ?b = RtoC ?a' * ?d * RtoC ?b' => transitivity (d * RtoC (a * b)); [rewrite (RtoC_mult a); ring|transitivity (d * RtoC (a' * b')); [|rewrite (RtoC_mult a'); ring]] end.
    do 2 f_equal. field. split; [now apply pw_neq0|apply IZR_pos_neq0; lia].
  - intros w. eapply is_CInt_val; [|apply is_CInt_scal; apply rint; lia].
    replace (a + b + 1 + 1)%Z with (a + b + 2)%Z by ring. rewrite pw_zero, pw_mult by lia.
    match goal with |- RtoC ?a * ?d * RtoC ?b = RtoC ?a' * (?d * RtoC ?b') => transitivity (d * RtoC (a * b)); [rewrite (RtoC_mult a); ring|transitivity (d * RtoC (a' * b')); [|rewrite (RtoC_mult a'); ring]] end.
    do 2 f_equal. field. repeat split; try (apply IZR_pos_neq0; lia); now apply pw_neq0.
  - eapply is_CInt_val; [|apply is_CInt_scal; apply (cone_zint z c (a + b + 2)); (assumption || lia)].
    rewrite <- RtoC_mult. f_equal. unfold mu_apex. replace (c + (a + b + 2) + 1)%Z with (a + b + c + 3)%Z by ring.
    assert (E : pw x (a + b + 2) = (pw x (a + 1) * pw x (b + 1))%R) by (rewrite <- pw_add_nonneg by lia; f_equal; ring). rewrite E.
    assert (E2 : zfact (a + b + 2) = (IZR (a + b + 2) * zfact (a + b + 1))%R) by (rewrite zfact_rec by lia; do 2 f_equal; ring). rewrite E2.
    assert (F2 := zfact_neq0 (a + b + c + 3)). field. repeat split; try (apply IZR_pos_neq0; lia); try assumption; now apply pw_neq0.
Qed.
Lemma apex_volume x y1 y2 z : mu_apex x y1 y2 z 0 0 0 = (x * (y2 - y1) * z / 6)%R.
Proof.
  unfold mu_apex. change (0 + 0 + 1)%Z with 1%Z. change (0 + 1)%Z with 1%Z. change (0 + 0 + 0 + 3)%Z with 3%Z. rewrite !pw_1, zfact_1, zfact_3. field.
Qed.
Lemma tetra2_entry_int mass x y1 y2 z l m : (0 <= m <= l)%Z -> x <> 0%R -> y1 <> y2 -> z <> 0%R ->
  tetra2_entry mass x y1 y2 z l m = RtoC (mass / (x * (y2 - y1) * z / 6)) * (RtoC (nrm l m) * mono_int (mu_apex x y1 y2 z) l m).
Proof.
  intros Hm Hx Hy Hz. unfold tetra2_entry, mono_int. destruct (half_range l m Hm) as [Hr Hr'].
  assert (Hy' : (y2 - y1 <> 0)%R) by (intros ?; apply Hy; lra).
  rewrite <- !zsum_scal_r, <- !zsum_scal_l. apply zsum_ext. intros k Hk. cbv zeta.
  rewrite nrm_split by lia. rewrite <- !zsum_scal_l, <- !zsum_scal_r. apply zsum_ext. intros p Hp. rewrite <- !zsum_scal_l, <- !zsum_scal_r. apply zsum_ext. intros j Hj.
  unfold coef, mu_apex. replace (l + 4)%Z with (l + 3 + 1)%Z by ring. replace (m + 2 * k + 2)%Z with (m + 2 * k + 1 + 1)%Z by ring.
  set (gm := exp (_ - _ - _)). assert (Egm : gm = (zfact (m + 2 * k + 1) / (zfact j * zfact (k - j)) / (zfact p * zfact (m + k - p)))%R).
  { unfold gm, Rminus. rewrite !exp_plus, !exp_Ropp, !exp_plus, !exp_gl. reflexivity. } rewrite Egm. clearbody gm. rewrite !exp_gl.
  replace (m + 2 * k - (p + j) + (p + j) + (l - m - 2 * k) + 3)%Z with (l + 3)%Z by ring.
  replace (m + 2 * k - (p + j) + (p + j) + 1)%Z with (m + 2 * k + 1)%Z by ring.
  replace (l - (m + 2 * k))%Z with (l - m - 2 * k)%Z by ring.
  set (sg := sgnC _). set (sp := sgnC _). set (ci := cpow _ _).
  match goal with |- sg * RtoC ?a1 * (ci * sp * RtoC ?a2 * RtoC ?a3) * RtoC ?a4 = RtoC ?b1 * (RtoC ?b2 * (sg * sp * ci * RtoC ?b3 * RtoC ?b4)) =>
      transitivity (sg * sp * ci * RtoC (a1 * (a2 * (a3 * a4))));
       [rewrite (RtoC_mult a1), (RtoC_mult a2), (RtoC_mult a3); ring|
        transitivity (sg * sp * ci * RtoC (b1 * (b2 * (b3 * b4)))); [|rewrite (RtoC_mult b1), (RtoC_mult b2), (RtoC_mult b3); ring]] end.
  f_equal. f_equal. unfold factor. rewrite (pw_add_nonneg x _ 1), (pw_add_nonneg z _ 1), !pw_1 by lia.
  assert (F2 := zfact_neq0 (l + 3)). assert (F4 := pw2_neq0 (m + 2 * k)). assert (F5 := IZR_pos_neq0 (p + j + 1) ltac:(lia)).
  assert (F7 := zfact_neq0 j). assert (F8 := zfact_neq0 p). assert (F9 := zfact_neq0 (k - j)). assert (F10 := zfact_neq0 (m + k - p)).
  field. repeat split; assumption.
Qed.
Lemma tetrahedron2_body L mass x y1 y2 z q : (0 <= L)%Z -> tetrahedron2 L mass x y1 y2 z = Ok q ->
  deg q = L /\ moments_of_body q mass (apex_tetrahedron x y1 y2 z).
Proof.
  intros HL E. unfold tetrahedron2 in E.
  destruct (_ || _)%bool eqn:G; [discriminate|]. apply Bool.orb_false_elim in G. destruct G as [G G3].
  apply Bool.orb_false_elim in G. destruct G as [G1 G2]. apply rle_false in G1, G3. apply req_false in G2. injection E as <-.
  assert (HV : (x * (y2 - y1) * z / 6 <> 0)%R).
  { unfold Rdiv. repeat (apply Rmult_integral_contrapositive_currified); intros ?; lra. }
  apply (body_from_entry _ (mu_apex x y1 y2 z)); [assumption|apply regular_apex|intros; apply apex_mono; (assumption || lra)|now rewrite apex_volume|].
  intros l m Hm. rewrite apex_volume. apply tetra2_entry_int; (assumption || lra).
Qed.
