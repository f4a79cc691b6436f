(* Irregular solid harmonics: their derivatives along a line, their bounds, and the convergence of their Taylor series. *)
From Coq Require Import Reals Lia Lra.
From Coquelicot Require Import Coquelicot.
From Verif Require Export TransSpec SeriesSpec.
From Verif Require Import Tri Solid TranslationsProofs CDeriv Legendre Addition Newton ClebschGordan ClebschGordanProofs CGOrth.
From Verif Require Import Cplx.
Open Scope C_scope.

Lemma Rm1 : RtoC (-1) = - (1).
Proof. exact (RtoC_opp 1). Qed.
(* ---- recurrences ---- *)
Lemma tri_m l m A z B : RtoC (IZR m) * tri l m A z B = A * tri (l - 1) (m - 1) A z B - B * tri (l - 1) (m + 1) A z B.
Proof.
  rewrite (tri_range l m A z B (-1) (l + 3)) by lia.
  rewrite (tri_range (l - 1) (m - 1) A z B (-1) (l + 3)) by lia.
  rewrite (tri_range (l - 1) (m + 1) A z B (-2) (l + 2)) by lia.
  rewrite (zsum_shift 1 (-2)).
  change (-2 + 1)%Z with (-1)%Z. replace (l + 2 + 1)%Z with (l + 3)%Z by ring.
  match goal with |- _ = _ * ?x - _ * ?y => transitivity (A * x + (- B) * y); [|ring] end. rewrite <- !zsum_scal_l, <- !zsum_plus. apply zsum_ext. intros k Hk. unfold trit.
  replace (RtoC (IZR m)) with (RtoC (IZR (m + k)) - RtoC (IZR k)).
  2:{ rewrite <- RtoC_minus, <- minus_IZR. do 2 f_equal. ring. }
  replace (l - 1 - (m - 1) - 2 * k)%Z with (l - m - 2 * k)%Z by ring.
  replace (m - 1 + k)%Z with (m + k - 1)%Z by ring.
  replace (l - 1 - (m + 1) - 2 * (k - 1))%Z with (l - m - 2 * k)%Z by ring.
  replace (m + 1 + (k - 1))%Z with (m + k)%Z by ring.
  transitivity (dp z (l - m - 2 * k) * (RtoC (IZR (m + k)) * dp A (m + k)) * dp B k
     - dp z (l - m - 2 * k) * dp A (m + k) * (RtoC (IZR k) * dp B k)); [ring|].
  rewrite !dp_rec. ring.
Qed.
Lemma tri_lower l m A z B : RtoC (IZR (l - m)) * tri l m A z B = z * tri (l - 1) m A z B + 2 * B * tri (l - 1) (m + 1) A z B.
Proof.
  rewrite minus_IZR, RtoC_minus. transitivity (RtoC (IZR l) * tri l m A z B - RtoC (IZR m) * tri l m A z B); [ring|].
  rewrite tri_rec, tri_m. ring.
Qed.
Lemma tri_upper l m A z B : RtoC (IZR (l + m)) * tri l m A z B = z * tri (l - 1) m A z B + 2 * A * tri (l - 1) (m - 1) A z B.
Proof.
  rewrite plus_IZR, RtoC_plus. transitivity (RtoC (IZR l) * tri l m A z B + RtoC (IZR m) * tri l m A z B); [ring|].
  rewrite tri_rec, tri_m. ring.
Qed.
Lemma tri_B l m A z B :
  RtoC (IZR ((l - m + 1) * (l - m + 2))) * tri (l + 1) (m - 1) A z B = (z * z - RtoC 4 * A * B) * tri (l - 1) (m - 1) A z B + 2 * RtoC (IZR (2 * l + 1)) * B * tri l m A z B.
Proof.
  assert (E1 := tri_lower (l + 1) (m - 1) A z B). assert (E2 := tri_lower l (m - 1) A z B). assert (E3 := tri_upper l m A z B).
  replace (l + 1 - (m - 1))%Z with (l - m + 2)%Z in E1 by ring. replace (l + 1 - 1)%Z with l in E1 by ring. replace (m - 1 + 1)%Z with m in E1, E2 by ring.
  replace (l - (m - 1))%Z with (l - m + 1)%Z in E2 by ring.
  rewrite mult_IZR, RtoC_mult. rewrite <- Cmult_assoc, E1.
  transitivity (z * (RtoC (IZR (l - m + 1)) * tri l (m - 1) A z B) + 2 * B * (RtoC (IZR (l - m + 1)) * tri l m A z B)); [ring|]. rewrite E2.
  replace (RtoC (IZR (l - m + 1))) with (RtoC (IZR (2 * l + 1)) - RtoC (IZR (l + m))) by (rewrite <- RtoC_minus, <- minus_IZR; do 2 f_equal; ring).
  transitivity (z * (z * tri (l - 1) (m - 1) A z B + 2 * B * tri (l - 1) m A z B) + 2 * B * (RtoC (IZR (2 * l + 1)) * tri l m A z B - RtoC (IZR (l + m)) * tri l m A z B)); [ring|].
  rewrite E3. ring.
Qed.
Lemma tri_A l m A z B :
  RtoC (IZR ((l + m + 1) * (l + m + 2))) * tri (l + 1) (m + 1) A z B = (z * z - RtoC 4 * A * B) * tri (l - 1) (m + 1) A z B + 2 * RtoC (IZR (2 * l + 1)) * A * tri l m A z B.
Proof.
  assert (E := tri_B l (- m) B z A). rewrite !(tri_flip _ _ A z B) in E.
  replace (- (- m - 1))%Z with (m + 1)%Z in E by ring. replace (- - m)%Z with m in E by ring. replace (l - - m)%Z with (l + m)%Z in E by ring. rewrite E. ring.
Qed.

(* ---- the irregular solid harmonics ---- *)
Definition Av (v : vec) : C := let '(x, y, _) := v in - (RtoC x - Ci * RtoC y) / RtoC 2.
Definition zv (v : vec) : C := let '(_, _, z) := v in RtoC z.
Definition Bv (v : vec) : C := let '(x, y, _) := v in (RtoC x + Ci * RtoC y) / RtoC 2.
Lemma S_tri l m v : S_ l m v = tri l m (Av v) (zv v) (Bv v).
Proof. destruct v as [[x y] z]. reflexivity. Qed.
Definition wfac (l m : Z) : R := (zfact (l + m) * zfact (l - m))%R.
Definition U_ (l m : Z) (v : vec) : C := RtoC (wfac l m) * sgnC m * S_ l (- m) v.
Definition K_ (l m : Z) (v : vec) : C := U_ l m v * RtoC (/ (vnorm v ^ Z.to_nat (2 * l + 1))).
Lemma rho_v v : zv v * zv v - RtoC 4 * Av v * Bv v = RtoC (vsq v).
Proof.
  destruct v as [[x y] z]. unfold zv, Av, Bv, vsq, vdot. rewrite !RtoC_plus, !RtoC_mult.
  transitivity (RtoC z * RtoC z + (RtoC x * RtoC x - (Ci * Ci) * (RtoC y * RtoC y))); [field|]. rewrite Ci_sqr. ring.
Qed.
Lemma dot_v v p : zv v * zv p - 2 * Av p * Bv v - 2 * Av v * Bv p = RtoC (vdot v p).
Proof.
  destruct v as [[x y] z], p as [[x' y'] z']. unfold zv, Av, Bv, vdot. rewrite !RtoC_plus, !RtoC_mult.
  transitivity (RtoC z * RtoC z' + (RtoC x * RtoC x' - (Ci * Ci) * (RtoC y * RtoC y'))); [field|]. rewrite Ci_sqr. ring.
Qed.
Definition on_line (t p : vec) (s : R) : vec := let '(a, b, c) := t in let '(x, y, z) := p in (a + s * x, b + s * y, c + s * z)%R.
Lemma cder_Av t p s : cder (fun s => Av (on_line t p s)) s (Av p).
Proof.
  destruct t as [[a b] c], p as [[x y] z]. cbn [on_line Av].
  apply (cder_ext (fun s => (- (RtoC x - Ci * RtoC y) / RtoC 2) * RtoC s + - (RtoC a - Ci * RtoC b) / RtoC 2)). { intros u. rewrite !RtoC_plus, !RtoC_mult. field. }
  eapply cder_val; [|apply cder_plus; [apply cder_scal, cder_id|apply cder_const]]. ring.
Qed.
Lemma cder_Bv t p s : cder (fun s => Bv (on_line t p s)) s (Bv p).
Proof.
  destruct t as [[a b] c], p as [[x y] z]. cbn [on_line Bv].
  apply (cder_ext (fun s => ((RtoC x + Ci * RtoC y) / RtoC 2) * RtoC s + (RtoC a + Ci * RtoC b) / RtoC 2)). { intros u. rewrite !RtoC_plus, !RtoC_mult. field. }
  eapply cder_val; [|apply cder_plus; [apply cder_scal, cder_id|apply cder_const]]. ring.
Qed.
Lemma cder_zv t p s : cder (fun s => zv (on_line t p s)) s (zv p).
Proof.
  destruct t as [[a b] c], p as [[x y] z]. cbn [on_line zv].
  apply (cder_ext (fun s => RtoC z * RtoC s + RtoC c)). { intros u. rewrite !RtoC_plus, !RtoC_mult. ring. }
  eapply cder_val; [|apply cder_plus; [apply cder_scal, cder_id|apply cder_const]]. ring.
Qed.
Lemma der_inv_norm t p (s : R) (n : nat) : (0 < vnorm (on_line t p s))%R ->
  is_derive (fun s : R => / (vnorm (on_line t p s) ^ n))%R s (- INR n * vdot (on_line t p s) p * / (vnorm (on_line t p s) ^ (n + 2)))%R.
Proof.
  destruct t as [[a b] c], p as [[x y] z]. cbn [on_line]. unfold vnorm at 1 2. intros H.
  set (q := fun s : R => ((a + s * x) ^ 2 + (b + s * y) ^ 2 + (c + s * z) ^ 2)%R).
  assert (Hq : (0 < q s)%R). { destruct (Rle_lt_dec (q s) 0) as [h|h]; [|exact h]. exfalso. unfold q in h. apply sqrt_neg_0 in h. rewrite h in H. lra. }
  assert (D : is_derive q s (2 * vdot (a + s * x, b + s * y, c + s * z) (x, y, z))%R). { unfold q, vdot. auto_derive; [trivial|]. ring. }
  assert (Ds : is_derive (fun u : R => sqrt (q u)) s (vdot (a + s * x, b + s * y, c + s * z) (x, y, z) / sqrt (q s))%R).
  { eapply is_derive_eq; [apply (is_derive_sqrt q s _ D Hq)|]. field. now apply Rgt_not_eq, sqrt_lt_R0. }
  change (is_derive (fun s => / (sqrt (q s) ^ n))%R s (- INR n * vdot (a + s * x, b + s * y, c + s * z) (x, y, z) * / (sqrt (q s) ^ (n + 2)))%R).
  assert (Hs : (0 < sqrt (q s))%R) by now apply sqrt_lt_R0.
  eapply is_derive_eq; [apply is_derive_inv; [apply is_derive_pow, Ds|apply pow_nonzero; lra]|]. cbv beta.
  destruct n as [|k]. { simpl. field. lra. }
  rewrite pow_add. cbn [pred]. rewrite <- !tech_pow_Rmult. set (r := sqrt (q s)) in *. assert (Hk : (r ^ k <> 0)%R) by (apply pow_nonzero; lra). field. split; first [exact Hk|lra].
Qed.
Lemma cder_RtoC (g : R -> R) (x d : R) : is_derive g x d -> cder (fun s => RtoC (g s)) x (RtoC d).
Proof. intros H. exact (conj H (is_derive_const (K := R_AbsRing) (V := R_NormedModule) 0%R x)). Qed.
Lemma vnorm_vsq v : vnorm v = sqrt (vsq v).
Proof. destruct v as [[x y] z]. unfold vnorm, vsq, vdot. f_equal. ring. Qed.
Lemma vsq_nonneg v : (0 <= vsq v)%R.
Proof. destruct v as [[x y] z]. unfold vsq, vdot. nra. Qed.
Lemma vnorm_sq v : (vnorm v ^ 2 = vsq v)%R.
Proof. rewrite vnorm_vsq. simpl. rewrite Rmult_1_r. apply sqrt_sqrt, vsq_nonneg. Qed.
Lemma wfac_up l m : (Z.abs m <= l)%Z -> wfac (l + 1) (m + 1) = (IZR ((l + m + 1) * (l + m + 2)) * wfac l m)%R.
Proof.
  intros H. unfold wfac. replace (l + 1 + (m + 1))%Z with (l + m + 1 + 1)%Z by ring. rewrite (zfact_succ (l + m + 1)), (zfact_succ (l + m)) by lia.
  replace (l + 1 - (m + 1))%Z with (l - m)%Z by ring. rewrite mult_IZR. replace (l + m + 1 + 1)%Z with (l + m + 2)%Z by ring. ring.
Qed.
Lemma wfac_opp l m : wfac l (- m) = wfac l m.
Proof. unfold wfac. replace (l + - m)%Z with (l - m)%Z by ring. replace (l - - m)%Z with (l + m)%Z by ring. ring. Qed.
Lemma wfac_dn l m : (Z.abs m <= l)%Z -> wfac (l + 1) (m - 1) = (IZR ((l - m + 1) * (l - m + 2)) * wfac l m)%R.
Proof. intros H. rewrite <- (wfac_opp l m), <- wfac_opp. replace (- (m - 1))%Z with (- m + 1)%Z by ring. rewrite wfac_up by lia. now replace (l + - m)%Z with (l - m)%Z by ring. Qed.
Lemma wfac_0 l m : (Z.abs m <= l)%Z -> wfac (l + 1) m = (IZR ((l + 1 + m) * (l + 1 - m)) * wfac l m)%R.
Proof.
  intros H. unfold wfac. replace (l + 1 + m)%Z with (l + m + 1)%Z by ring. replace (l + 1 - m)%Z with (l - m + 1)%Z by ring. rewrite !zfact_succ by lia. rewrite mult_IZR. ring.
Qed.
Lemma cder_K l m t p s : (Z.abs m <= l)%Z -> (0 < vnorm (on_line t p s))%R ->
  cder (fun s => K_ l m (on_line t p s)) s
    (- (Av p * K_ (l + 1) (m + 1) (on_line t p s) + zv p * K_ (l + 1) m (on_line t p s) + Bv p * K_ (l + 1) (m - 1) (on_line t p s))).
Proof.
  intros Hm Hr. unfold K_, U_. set (n := Z.to_nat (2 * l + 1)).
  eapply cder_val; [|apply (cder_mult (fun s => RtoC (wfac l m) * sgnC m * S_ l (- m) (on_line t p s)) (fun s => RtoC (/ vnorm (on_line t p s) ^ n)))].
  3:{ apply cder_RtoC, der_inv_norm, Hr. }
  2:{ apply cder_scal. eapply cder_ext; [intros u; symmetry; apply S_tri|]. apply cder_tri; [apply cder_Av|apply cder_zv|apply cder_Bv]. }
  cbv beta. rewrite !S_tri. set (v := on_line t p s) in *.
  replace (Z.to_nat (2 * (l + 1) + 1)) with (n + 2)%nat by lia.
  replace (/ vnorm v ^ n)%R with (vsq v * / vnorm v ^ (n + 2))%R.
  2:{ rewrite pow_add, vnorm_sq. field. split; [apply pow_nonzero; lra|]. rewrite <- vnorm_sq. apply pow_nonzero; lra. }
  assert (En : INR n = IZR (2 * l + 1)) by (rewrite INR_IZR_INZ; f_equal; lia). rewrite En.
  rewrite wfac_up, wfac_dn, wfac_0 by assumption.
  assert (E1 := tri_B l (- m) (Av v) (zv v) (Bv v)). assert (E2 := tri_A l (- m) (Av v) (zv v) (Bv v)). assert (E3 := tri_rec_l (l + 1) (- m) (Av v) (zv v) (Bv v)).
  rewrite rho_v in E1, E2, E3.
  replace (l - - m)%Z with (l + m)%Z in E1 by ring. replace (l + - m)%Z with (l - m)%Z in E2 by ring. replace ((l + 1 + - m) * (l + 1 - - m))%Z with ((l + 1 + m) * (l + 1 - m))%Z in E3 by ring.
  replace (2 * (l + 1) - 1)%Z with (2 * l + 1)%Z in E3 by ring. replace (l + 1 - 1)%Z with l in E3 by ring. replace (l + 1 - 2)%Z with (l - 1)%Z in E3 by ring.
  replace (- (m + 1))%Z with (- m - 1)%Z by ring. replace (- (m - 1))%Z with (- m + 1)%Z by ring.
  rewrite sgnC_succ, sgnC_pred.
  rewrite !RtoC_mult, !RtoC_opp. rewrite <- dot_v. set (i := RtoC (/ vnorm v ^ (n + 2))). set (w := RtoC (wfac l m)). set (sg := sgnC m).
  set (k1 := RtoC (IZR ((l + m + 1) * (l + m + 2)))) in *. set (k2 := RtoC (IZR ((l - m + 1) * (l - m + 2)))) in *. set (k3 := RtoC (IZR ((l + 1 + m) * (l + 1 - m)))) in *.
  transitivity (w * sg * i * (Av p * (k1 * tri (l + 1) (- m - 1) (Av v) (zv v) (Bv v)) + Bv p * (k2 * tri (l + 1) (- m + 1) (Av v) (zv v) (Bv v)) - zv p * (k3 * tri (l + 1) (- m) (Av v) (zv v) (Bv v)))); [|ring].
  rewrite E1, E2, E3. ring.
Qed.

(* ---- the terms of the Taylor series ---- *)
Definition DK (L M n : Z) (p v : vec) : C := zsum (- n) (n + 1) (fun m => S_ n m p * K_ (L + n) (M + m) v).
Lemma S_rec n m p : RtoC (IZR (n + 1)) * S_ (n + 1) m p = Av p * S_ n (m - 1) p + zv p * S_ n m p + Bv p * S_ n (m + 1) p.
Proof. rewrite !S_tri, tri_rec. now replace (n + 1 - 1)%Z with n by ring. Qed.
Lemma cder_DK L M n t p s : (0 <= n)%Z -> (Z.abs M <= L)%Z -> (0 < vnorm (on_line t p s))%R ->
  cder (fun s => DK L M n p (on_line t p s)) s (- (RtoC (IZR (n + 1)) * DK L M (n + 1) p (on_line t p s))).
Proof.
  intros Hn HM Hr. unfold DK. eapply cder_val; [|apply cder_zsum; intros k Hk; cbv beta; apply cder_scal, cder_K; [lia|exact Hr]].
  set (v := on_line t p s) in *. replace (L + n + 1)%Z with (L + (n + 1))%Z by ring. set (l := (L + (n + 1))%Z).
  rewrite <- zsum_scal_l.
  rewrite (zsum_ext (- (n + 1)) _ _ (fun k => Av p * S_ n (k - 1) p * K_ l (M + k) v + zv p * S_ n k p * K_ l (M + k) v + Bv p * S_ n (k + 1) p * K_ l (M + k) v)).
  2:{ intros k Hk. rewrite Cmult_assoc, S_rec. ring. }
  rewrite !zsum_plus.
  replace (zsum (- n) (n + 1) (fun k => S_ n k p * - (Av p * K_ l (M + k + 1) v + zv p * K_ l (M + k) v + Bv p * K_ l (M + k - 1) v)))
    with (- (zsum (- n) (n + 1) (fun k => Av p * S_ n k p * K_ l (M + k + 1) v) + zsum (- n) (n + 1) (fun k => zv p * S_ n k p * K_ l (M + k) v) + zsum (- n) (n + 1) (fun k => Bv p * S_ n k p * K_ l (M + k - 1) v))).
  2:{ rewrite <- !zsum_plus. transitivity (RtoC (-1) * zsum (- n) (n + 1) (fun k => Av p * S_ n k p * K_ l (M + k + 1) v + zv p * S_ n k p * K_ l (M + k) v + Bv p * S_ n k p * K_ l (M + k - 1) v)).
      { rewrite Rm1. ring. } rewrite <- zsum_scal_l. apply zsum_ext. intros k Hk. rewrite Rm1. ring. }
  f_equal. f_equal; [f_equal|].
  - rewrite (zsum_shift 1 (- n)). rewrite (zsum_sub (- (n + 1)) _ (- n + 1) (n + 1 + 1)); try lia.
    + apply zsum_ext. intros k Hk. replace (M + (k - 1) + 1)%Z with (M + k)%Z by ring. reflexivity.
    + intros k Hk Hn'. rewrite S_zero by lia. ring.
  - rewrite (zsum_sub (- (n + 1)) _ (- n) (n + 1)); try lia; [reflexivity|]. intros k Hk Hn'. rewrite S_zero by lia. ring.
  - rewrite (zsum_shift (-1) (- n)). rewrite (zsum_sub (- (n + 1)) _ (- n + -1) (n + 1 + -1)); try lia.
    + apply zsum_ext. intros k Hk. replace (M + (k - -1) - 1)%Z with (M + k)%Z by ring. replace (k - -1)%Z with (k + 1)%Z by ring. reflexivity.
    + intros k Hk Hn'. rewrite S_zero by lia. ring.
Qed.
(* Taylor polynomial about the moving point, evaluated at parameter 1 *)
Definition TP (L M : Z) (p : vec) (N : nat) (s : R) (v : vec) : C :=
  zsum 0 (Z.of_nat N + 1) (fun n => RtoC ((s - 1) ^ Z.to_nat n) * DK L M n p v).
Lemma cder_TP L M t p s (N : nat) : (Z.abs M <= L)%Z -> (0 < vnorm (on_line t p s))%R ->
  cder (fun s => TP L M p N s (on_line t p s)) s (- (RtoC (INR (S N) * (s - 1) ^ N) * DK L M (Z.of_nat (S N)) p (on_line t p s))).
Proof.
  intros HM Hr. unfold TP. induction N as [|N IH].
  - apply (cder_ext (fun u => DK L M 0 p (on_line t p u))).
    { intros u. change (Z.of_nat 0 + 1)%Z with (0 + 1)%Z. rewrite zsum_one. change (Z.to_nat 0) with 0%nat. simpl pow. ring. }
    eapply cder_val; [|apply cder_DK; [lia|exact HM|exact Hr]].
    simpl INR. simpl pow. change (0 + 1)%Z with 1%Z. change (Z.of_nat 1) with 1%Z. rewrite Rmult_1_l. reflexivity.
  - apply (cder_ext (fun u => zsum 0 (Z.of_nat N + 1) (fun n => RtoC ((u - 1) ^ Z.to_nat n) * DK L M n p (on_line t p u)) + RtoC ((u - 1) ^ Z.to_nat (Z.of_nat N + 1)) * DK L M (Z.of_nat N + 1) p (on_line t p u))).
    { intros u. replace (Z.of_nat (S N)) with (Z.of_nat N + 1)%Z by lia. now rewrite (zsum_last 0 (Z.of_nat N + 1)) by lia. }
    eapply cder_val; [|apply cder_plus; [exact IH|apply cder_mult; [|apply cder_DK; [lia|exact HM|exact Hr]]]].
    2:{ apply cder_RtoC. replace (Z.to_nat (Z.of_nat N + 1)) with (S N) by lia. apply (is_derive_eq _ _ (INR (S N) * 1 * (s - 1) ^ pred (S N))); [|reflexivity].
        apply (is_derive_pow (fun u : R => (u - 1)%R)). auto_derive; [trivial|ring]. }
    cbv beta. cbn [pred]. replace (Z.to_nat (Z.of_nat N + 1)) with (S N) by lia. replace (Z.of_nat N + 1)%Z with (Z.of_nat (S N)) by lia. replace (Z.of_nat (S N) + 1)%Z with (Z.of_nat (S (S N))) by lia.
    rewrite <- INR_IZR_INZ. rewrite !RtoC_mult. ring.
Qed.

(* ---- bounds ---- *)
Lemma wfac_pos l m : (0 < wfac l m)%R.
Proof. apply Rmult_lt_0_compat; apply zfact_pos. Qed.
Lemma HL_11 n : HL 1 1 n = 1%R.
Proof.
  revert n. apply nat_ind2; [reflexivity|reflexivity|]. intros n I0 I1. assert (Hp := pos_INR n). apply (Rmult_eq_reg_l (INR n + 2)); [|lra].
  rewrite HL_SS, I0, I1. ring.
Qed.
Lemma nrm_wfac l m : (Z.abs m <= l)%Z -> (nrm l m * nrm l m = (2 * IZR l + 1) / (4 * PI) * wfac l m)%R.
Proof.
  intros H. unfold nrm, wfac. rewrite sqrt_sqrt.
  - field. apply PI_neq0.
  - assert (P := PI_RGT_0). assert (0 <= IZR l)%R by (apply (IZR_le 0); lia). assert (A := zfact_pos (l + m)). assert (B := zfact_pos (l - m)).
    apply Rdiv_le_0_compat; [|lra]. apply Rmult_le_pos; [apply Rmult_le_pos|]; lra.
Qed.
Lemma rsum_term a b f k : (forall k, (a <= k < b)%Z -> (0 <= f k)%R) -> (a <= k < b)%Z -> (f k <= rsum a b f)%R.
Proof.
  intros H Hk. assert (E : (0 <= rsum a b (fun j => f j - (if (j =? k)%Z then f k else 0)))%R).
  { apply rsum_ge0. intros j Hj. destruct (Z.eqb_spec j k) as [->|_]; [lra|]. specialize (H j Hj). lra. }
  rewrite rsum_minus in E. rewrite (rsum_single a b k (fun j => if (j =? k)%Z then f k else 0%R)) in E; [|exact Hk|].
  - rewrite Z.eqb_refl in E. lra.
  - intros j Hj Hn. now rewrite (proj2 (Z.eqb_neq j k)).
Qed.
Lemma Cmod_sq_conj (z : C) : z * Cconj z = RtoC (Cmod z ^ 2).
Proof. unfold Cmod. rewrite pow2_sqrt; [apply C_eq; unfold Cconj; simpl; ring|]. destruct z as [a b]. cbn [fst snd]. nra. Qed.
Lemma S_sum_sq l p : (0 <= l)%Z -> rsum (- l) (l + 1) (fun m => wfac l m * Cmod (S_ l m p) ^ 2)%R = (vsq p ^ Z.to_nat l)%R.
Proof.
  intros Hl. destruct (Req_EM_T (vnorm p) 0) as [E0|E0].
  - apply vnorm_0_iff in E0. subst p. destruct (Z.eq_dec l 0) as [->|Hn].
    + rewrite (rsum_single _ _ 0) by lia. rewrite S_v0. cbn [Z.eqb andb]. rewrite Cmod_1. unfold wfac. cbn. ring.
    + rewrite rsum_0. { replace (vsq v0) with 0%R by (unfold vsq, vdot, v0; ring). rewrite pow_i by lia. reflexivity. }
      intros k Hk. rewrite S_v0. rewrite (proj2 (Z.eqb_neq l 0)) by assumption. cbn [andb]. rewrite Cmod_0. ring.
  - assert (A := addition l p p Hl E0). replace (vsq p) with (vsq p * 1)%R in A at 1 by ring. unfold vsq in A at 1.
    assert (H1 : HL (vdot p p) (vsq p * vsq p) (Z.to_nat l) = (vsq p ^ Z.to_nat l)%R).
    { replace (vdot p p) with (vsq p * 1)%R by (unfold vsq; ring). replace (vsq p * vsq p)%R with (vsq p * vsq p * 1)%R by ring. rewrite HL_scal, HL_11. ring. }
    replace (vdot p p * 1 * vsq p)%R with (vsq p * vsq p)%R in A by (unfold vsq; ring). rewrite H1 in A.
    assert (Hc : ((2 * IZR l + 1) / (4 * PI) <> 0)%R). { assert (P := PI_RGT_0). assert (0 <= IZR l)%R by (apply (IZR_le 0); lia). apply Rgt_not_eq. apply Rdiv_lt_0_compat; lra. }
    apply (Rmult_eq_reg_l ((2 * IZR l + 1) / (4 * PI))); [|exact Hc]. apply RtoC_inj. rewrite <- A, <- rsum_scal_l, rsum_zsum. apply zsum_ext. intros m Hm.
    rewrite rsolid_S, Cconj_mult, Cconj_RtoC. transitivity (RtoC (nrm l m * nrm l m) * (S_ l m p * Cconj (S_ l m p))); [|rewrite RtoC_mult; ring].
    rewrite nrm_wfac by lia. rewrite Cmod_sq_conj, <- RtoC_mult. f_equal. ring.
Qed.
Lemma S_bound l m p : (Z.abs m <= l)%Z -> (sqrt (wfac l m) * Cmod (S_ l m p) <= vnorm p ^ Z.to_nat l)%R.
Proof.
  intros H. assert (W := wfac_pos l m). assert (P := Cmod_ge_0 (S_ l m p)).
  apply Rsqr_incr_0_var. 2:{ apply pow_le. rewrite vnorm_vsq. apply sqrt_pos. }
  unfold Rsqr. rewrite <- Rpow_mult_distr. replace (vnorm p * vnorm p)%R with (vnorm p ^ 2)%R by ring. rewrite vnorm_sq, <- S_sum_sq by lia.
  replace (sqrt (wfac l m) * Cmod (S_ l m p) * (sqrt (wfac l m) * Cmod (S_ l m p)))%R with (wfac l m * Cmod (S_ l m p) ^ 2)%R by (rewrite <- (sqrt_sqrt (wfac l m)) at 1 by lra; ring).
  apply (rsum_term _ _ (fun m => wfac l m * Cmod (S_ l m p) ^ 2)%R m); [|lia]. intros k Hk. apply Rmult_le_pos; [apply Rlt_le, wfac_pos|apply pow2_ge_0].
Qed.
Lemma Cmod_sgnC m : Cmod (sgnC m) = 1%R.
Proof. unfold sgnC. destruct (Z.even m); rewrite Cmod_R; [apply Rabs_R1|]. rewrite Rabs_left; lra. Qed.
Lemma Cmod_pos (x : R) : (0 <= x)%R -> Cmod (RtoC x) = x.
Proof. intros H. rewrite Cmod_R. now apply Rabs_pos_eq. Qed.
Lemma K_bound l m v : (Z.abs m <= l)%Z -> (0 < vnorm v)%R -> (Cmod (K_ l m v) <= sqrt (wfac l m) / vnorm v ^ Z.to_nat (l + 1))%R.
Proof.
  intros H Hv. unfold K_, U_. rewrite !Cmod_mult, Cmod_sgnC. assert (W := wfac_pos l m). assert (Hp : forall n, (0 < vnorm v ^ n)%R) by (intros n; now apply pow_lt).
  rewrite !Cmod_pos by (lra || apply Rlt_le, Rinv_0_lt_compat, Hp).
  assert (B := S_bound l (- m) v ltac:(lia)). rewrite wfac_opp in B.
  replace (Z.to_nat (2 * l + 1)) with (Z.to_nat l + Z.to_nat (l + 1))%nat by lia. rewrite pow_add.
  assert (Hs : (0 < sqrt (wfac l m))%R) by now apply sqrt_lt_R0.
  rewrite <- (sqrt_sqrt (wfac l m)) at 1 by lra.
  assert (P1 := Hp (Z.to_nat l)). assert (P2 := Hp (Z.to_nat (l + 1))). set (a := (vnorm v ^ Z.to_nat l)%R) in *. set (b := (vnorm v ^ Z.to_nat (l + 1))%R) in *. set (c := Cmod _) in *. set (w := sqrt _) in *.
  replace (w * w * 1 * c * / (a * b))%R with ((w * c) * (w / (a * b)))%R by (field; lra).
  replace (w / b)%R with (a * (w / (a * b)))%R by (field; lra).
  apply Rmult_le_compat_r; [|exact B]. apply Rlt_le, Rdiv_lt_0_compat; [exact Hs|]. now apply Rmult_lt_0_compat.
Qed.
Lemma zfact_ratio (a : Z) (X : R) (j : nat) : (0 <= a)%Z -> (IZR a + INR j <= X)%R -> (zfact (a + Z.of_nat j) <= X ^ j * zfact a)%R.
Proof.
  intros Ha. induction j as [|j IH]; intros H.
  - replace (a + Z.of_nat 0)%Z with a by lia. simpl. lra.
  - rewrite S_INR in H. assert (I := IH ltac:(lra)). replace (a + Z.of_nat (S j))%Z with (a + Z.of_nat j + 1)%Z by lia. rewrite zfact_succ by lia. rewrite <- tech_pow_Rmult.
    assert (E : (IZR (a + Z.of_nat j + 1) <= X)%R) by (rewrite !plus_IZR, <- INR_IZR_INZ; lra). assert (0 <= IZR (a + Z.of_nat j + 1))%R by (apply (IZR_le 0); lia). assert (P := zfact_pos (a + Z.of_nat j)).
    rewrite Rmult_assoc. apply Rmult_le_compat; lra.
Qed.
Lemma wfac_ratio L M n m : (Z.abs M <= L)%Z -> (Z.abs m <= n)%Z -> (sqrt (wfac (L + n) (M + m)) <= IZR (2 * L + 2 * n) ^ Z.to_nat L * sqrt (wfac n m))%R.
Proof.
  intros HM Hm. set (X := IZR (2 * L + 2 * n)). assert (HX : (0 <= X)%R) by (apply (IZR_le 0); lia).
  assert (R1 := zfact_ratio (n + m) X (Z.to_nat (L + M)) ltac:(lia)). assert (R2 := zfact_ratio (n - m) X (Z.to_nat (L - M)) ltac:(lia)).
  replace (n + m + Z.of_nat (Z.to_nat (L + M)))%Z with (L + n + (M + m))%Z in R1 by lia. replace (n - m + Z.of_nat (Z.to_nat (L - M)))%Z with (L + n - (M + m))%Z in R2 by lia.
  rewrite INR_IZR_INZ, Z2Nat.id, <- plus_IZR in R1 by lia. rewrite INR_IZR_INZ, Z2Nat.id, <- plus_IZR in R2 by lia.
  specialize (R1 ltac:(apply IZR_le; lia)). specialize (R2 ltac:(apply IZR_le; lia)).
  rewrite <- (sqrt_pow2 (X ^ Z.to_nat L)) by now apply pow_le. rewrite <- sqrt_mult_alt by apply pow2_ge_0. apply sqrt_le_1_alt. unfold wfac.
  replace ((X ^ Z.to_nat L) ^ 2)%R with (X ^ Z.to_nat (L + M) * X ^ Z.to_nat (L - M))%R by (rewrite <- pow_add, <- pow_mult; f_equal; lia).
  assert (P1 := zfact_pos (L + n + (M + m))). assert (P2 := zfact_pos (L + n - (M + m))).
  eapply Rle_trans; [apply Rmult_le_compat; [lra|lra|exact R1|exact R2]|]. apply Req_le. ring.
Qed.
Lemma Cmod_zsum a b (f : Z -> C) c : (a <= b)%Z -> (forall k, (a <= k < b)%Z -> (Cmod (f k) <= c)%R) -> (Cmod (zsum a b f) <= IZR (b - a) * c)%R.
Proof.
  intros Hab. replace b with (a + Z.of_nat (Z.to_nat (b - a)))%Z by lia. generalize (Z.to_nat (b - a)) as n. clear b Hab. induction n as [|n IH]; intros H.
  - rewrite zsum_empty by lia. rewrite Cmod_0. replace (a + Z.of_nat 0 - a)%Z with 0%Z by lia. lra.
  - replace (a + Z.of_nat (S n))%Z with (a + Z.of_nat n + 1)%Z by lia. rewrite zsum_last by lia. eapply Rle_trans; [apply Cmod_triangle|].
    assert (I := IH ltac:(intros k Hk; apply H; lia)). assert (J := H (a + Z.of_nat n)%Z ltac:(lia)). replace (a + Z.of_nat n - a)%Z with (Z.of_nat n) in I by lia. replace (a + Z.of_nat n + 1 - a)%Z with (Z.of_nat n + 1)%Z by lia. rewrite plus_IZR. lra.
Qed.
Lemma DK_bound L M n p v : (Z.abs M <= L)%Z -> (0 <= n)%Z -> (0 < vnorm v)%R ->
  (Cmod (DK L M n p v) <= IZR (2 * n + 1) * IZR (2 * L + 2 * n) ^ Z.to_nat L * (vnorm p ^ Z.to_nat n / vnorm v ^ Z.to_nat (L + n + 1)))%R.
Proof.
  intros HM Hn Hv. unfold DK. rewrite Rmult_assoc. replace (2 * n + 1)%Z with (n + 1 - - n)%Z by ring. apply Cmod_zsum; [lia|]. intros m Hm. rewrite Cmod_mult.
  assert (B1 := S_bound n m p ltac:(lia)). assert (B2 := K_bound (L + n) (M + m) v ltac:(lia) Hv). assert (B3 := wfac_ratio L M n m HM ltac:(lia)).
  assert (W : (0 < sqrt (wfac n m))%R) by apply sqrt_lt_R0, wfac_pos. assert (P := Cmod_ge_0 (S_ n m p)). assert (P2 : (0 < vnorm v ^ Z.to_nat (L + n + 1))%R) by now apply pow_lt.
  set (x := (IZR (2 * L + 2 * n) ^ Z.to_nat L)%R) in *. set (r := (vnorm v ^ _)%R) in *. set (s := Cmod (S_ _ _ _)) in *. set (k := Cmod (K_ _ _ _)) in *. set (w := sqrt (wfac n m)) in *. set (w' := sqrt (wfac (L + n) _)) in *. set (q := (vnorm p ^ _)%R) in *.
  assert (Hx : (0 <= x)%R) by (apply pow_le, (IZR_le 0); lia).
  apply Rle_trans with (s * (x * w / r))%R.
  - apply Rmult_le_compat_l; [exact P|]. eapply Rle_trans; [exact B2|]. apply Rmult_le_compat_r; [apply Rlt_le, Rinv_0_lt_compat, P2|exact B3].
  - replace (s * (x * w / r))%R with (x / r * (w * s))%R by (field; lra). replace (x * (q / r))%R with (x / r * q)%R by (field; lra).
    apply Rmult_le_compat_l; [|exact B1]. apply Rmult_le_pos; [exact Hx|apply Rlt_le, Rinv_0_lt_compat, P2].
Qed.

(* ---- the remainder ---- *)
Lemma Cmod_cj (z : C) : Cmod (Cconj z) = Cmod z.
Proof. unfold Cmod. cbn [Cconj fst snd]. f_equal. ring. Qed.
Lemma mean_value (f df : R -> C) (B : R) : (forall s, (0 <= s <= 1)%R -> cder f s (df s)) -> (forall s, (0 <= s <= 1)%R -> (Cmod (df s) <= B)%R) -> (Cmod (f 1%R - f 0%R)%C <= B)%R.
Proof.
  intros D HB. set (w := f 1%R - f 0%R). assert (HB0 : (0 <= B)%R). { eapply Rle_trans; [apply Cmod_ge_0|apply (HB 0%R); lra]. }
  assert (Dh : forall s, (0 <= s <= 1)%R -> is_derive (fun u : R => Re (Cconj w * f u)) s (Re (Cconj w * df s))).
  { intros s Hs. exact (proj1 (cder_scal (Cconj w) f s (df s) (D s Hs))). }
  destruct (MVT_gen (fun u => Re (Cconj w * f u)) 0 1 (fun s => Re (Cconj w * df s))) as (c & Hc & E).
  { intros s Hs. rewrite Rmin_left, Rmax_right in Hs by lra. apply Dh. lra. }
  { intros s Hs. rewrite Rmin_left, Rmax_right in Hs by lra. apply continuity_pt_filterlim, (ex_derive_continuous (fun u => Re (Cconj w * f u))). exact (ex_intro _ _ (Dh s Hs)). }
  rewrite Rmin_left, Rmax_right in Hc by lra.
  assert (E2 : (Re (Cconj w * f 1%R)%C - Re (Cconj w * f 0%R)%C = Cmod w ^ 2)%R).
  { transitivity (Re (w * Cconj w)); [unfold w; simpl; ring|]. rewrite Cmod_sq_conj. reflexivity. }
  assert (E3 : (Re (Cconj w * df c)%C <= Cmod w * B)%R).
  { eapply Rle_trans; [apply Rle_abs|]. eapply Rle_trans; [eapply Rle_trans; [|apply Rmax_Cmod]; apply Rmax_l|]. rewrite Cmod_mult, Cmod_cj. apply Rmult_le_compat_l; [apply Cmod_ge_0|apply HB; lra]. }
  rewrite E2 in E. assert (P := Cmod_ge_0 w). destruct (Req_EM_T (Cmod w) 0) as [h|h]; [lra|]. nra.
Qed.
Lemma dist_line t p s : (0 <= s <= 1)%R -> (vnorm p < vnorm t)%R -> (vnorm t - s * vnorm p <= vnorm (on_line t p s))%R.
Proof.
  intros Hs H. assert (Hp : (0 <= vnorm p)%R) by (rewrite vnorm_vsq; apply sqrt_pos).
  assert (Cy := Newton.cauchy p t H). apply Rabs_le_between in Cy. apply Rsqr_incr_0_var; [|rewrite vnorm_vsq; apply sqrt_pos]. unfold Rsqr.
  replace (vnorm (on_line t p s) * vnorm (on_line t p s))%R with (vnorm (on_line t p s) ^ 2)%R by ring.
  assert (E : (vnorm (on_line t p s) ^ 2 = vnorm t ^ 2 + 2 * s * vdot p t + s * s * vnorm p ^ 2)%R).
  { rewrite !vnorm_sq. destruct t as [[a b] c], p as [[x y] z]. unfold vsq, vdot, on_line. ring. }
  rewrite E. nra.
Qed.
Lemma on_line_0 t p : on_line t p 0 = t.
Proof. destruct t as [[a b] c], p as [[x y] z]. unfold on_line. apply v3; ring. Qed.
Lemma on_line_1 t p : on_line t p 1 = vadd t p.
Proof. destruct t as [[a b] c], p as [[x y] z]. unfold on_line, vadd. apply v3; ring. Qed.
Lemma taylor_K L M t p (N : nat) : (Z.abs M <= L)%Z -> (vnorm p < vnorm t)%R ->
  (Cmod (K_ L M (vadd t p) - zsum 0 (Z.of_nat N + 1) (fun n => sgnC n * DK L M n p t))%C <= err_bound L (vnorm p) (vnorm t) N)%R.
Proof.
  intros HM H. assert (Hp : (0 <= vnorm p)%R) by (rewrite vnorm_vsq; apply sqrt_pos).
  assert (Hr : forall s, (0 <= s <= 1)%R -> (0 < vnorm (on_line t p s))%R). { intros s Hs. eapply Rlt_le_trans; [|apply dist_line; assumption]. nra. }
  replace (K_ L M (vadd t p)) with (TP L M p N 1 (on_line t p 1)).
  2:{ rewrite on_line_1. unfold TP. rewrite zsum_first by lia. rewrite (zsum_0 (0 + 1)).
      - change (Z.to_nat 0) with 0%nat. simpl pow. unfold DK. change (- 0)%Z with 0%Z. rewrite zsum_one, !Z.add_0_r, S_tri, tri_0_0. ring.
      - intros k Hk. rewrite Rminus_eq_0, pow_i by lia. ring. }
  replace (zsum 0 (Z.of_nat N + 1) (fun n => sgnC n * DK L M n p t)) with (TP L M p N 0 (on_line t p 0)).
  2:{ rewrite on_line_0. unfold TP. apply zsum_ext. intros k Hk. f_equal. replace (0 - 1)%R with (-1)%R by ring. rewrite <- (Z2Nat.id k) at 2 by lia. rewrite sgnC_pow. now rewrite cpow_RtoC. }
  apply (mean_value (fun s => TP L M p N s (on_line t p s)) (fun s => - (RtoC (INR (S N) * (s - 1) ^ N) * DK L M (Z.of_nat (S N)) p (on_line t p s)))).
  { intros s Hs. apply cder_TP; [exact HM|apply Hr, Hs]. }
  intros s Hs. rewrite Cmod_opp, Cmod_mult, Cmod_R, Rabs_mult, (Rabs_pos_eq (INR _)), <- RPow_abs by apply pos_INR.
  replace (Rabs (s - 1)) with (1 - s)%R by (rewrite Rabs_left1; lra).
  assert (B := DK_bound L M (Z.of_nat (S N)) p (on_line t p s) HM ltac:(lia) (Hr s Hs)). assert (Dl := dist_line t p s Hs H). specialize (Hr s Hs).
  set (r := vnorm (on_line t p s)) in *. set (a := vnorm p) in *. set (b := vnorm t) in *. unfold err_bound.
  set (x := (IZR (2 * Z.of_nat (S N) + 1) * IZR (2 * L + 2 * Z.of_nat (S N)) ^ Z.to_nat L)%R) in *.
  assert (Hx : (0 <= x)%R). { apply Rmult_le_pos; [apply (IZR_le 0); lia|apply pow_le, (IZR_le 0); lia]. }
  assert (HN := pos_INR (S N)). rewrite !Rmult_assoc. apply Rmult_le_compat_l; [exact HN|].
  eapply Rle_trans; [apply Rmult_le_compat_l; [apply pow_le; lra|exact B]|].
  rewrite <- Rmult_assoc, (Rmult_comm _ x), Rmult_assoc. apply Rmult_le_compat_l; [exact Hx|].
  replace (Z.to_nat (Z.of_nat (S N))) with (S N) by lia. replace (Z.to_nat (L + Z.of_nat (S N) + 1)) with (N + Z.to_nat (L + 2))%nat by lia. rewrite pow_add, <- tech_pow_Rmult.
  assert (Q1 : (0 < r ^ N)%R) by now apply pow_lt. assert (Q2 : (0 < r ^ Z.to_nat (L + 2))%R) by now apply pow_lt. assert (Q3 : (0 < (b - a) ^ Z.to_nat (L + 2))%R) by (apply pow_lt; lra).
  replace ((1 - s) ^ N * (a * a ^ N / (r ^ N * r ^ Z.to_nat (L + 2))))%R with (((1 - s) * a / r) ^ N * (a / r ^ Z.to_nat (L + 2)))%R.
  2:{ unfold Rdiv at 1. rewrite !Rpow_mult_distr, pow_inv. field. split; lra. }
  apply Rmult_le_compat.
  - apply pow_le. apply Rmult_le_pos; [apply Rmult_le_pos; lra|apply Rlt_le, Rinv_0_lt_compat, Hr].
  - apply Rmult_le_pos; [exact Hp|apply Rlt_le, Rinv_0_lt_compat, Q2].
  - apply pow_incr. split; [apply Rmult_le_pos; [apply Rmult_le_pos; lra|apply Rlt_le, Rinv_0_lt_compat, Hr]|].
    apply (Rmult_le_reg_r r); [exact Hr|]. replace ((1 - s) * a / r * r)%R with ((1 - s) * a)%R by (field; lra).
    apply Rle_trans with (a / b * (b - s * a))%R; [|apply Rmult_le_compat_l; [apply Rmult_le_pos; [exact Hp|apply Rlt_le, Rinv_0_lt_compat; lra]|exact Dl]].
    replace (a / b * (b - s * a))%R with (a - s * a * (a / b))%R by (field; lra).
    assert (a / b <= 1)%R. { apply (Rmult_le_reg_r b); [lra|]. replace (a / b * b)%R with a by (field; lra). lra. }
    assert (0 <= s * a)%R by (apply Rmult_le_pos; lra). nra.
  - apply Rmult_le_compat_l; [exact Hp|]. apply Rinv_le_contravar; [exact Q3|]. apply pow_incr. nra.
Qed.
(* polynomial times geometric tends to zero *)
Lemma poly_geom_bound (k : nat) : forall q, (0 <= q < 1)%R -> exists B, forall n, (INR (S n) ^ k * q ^ n <= B)%R.
Proof.
  induction k as [|k IH]; intros q Hq.
  - exists 1%R. intros n. simpl pow at 1. rewrite Rmult_1_l. rewrite <- (pow1 n). apply pow_incr. lra.
  - assert (Hs : (0 <= sqrt q < 1)%R). { split; [apply sqrt_pos|]. rewrite <- sqrt_1. apply sqrt_lt_1; lra. }
    destruct (IH (sqrt q) Hs) as [B HB]. exists (B * / (1 - sqrt q))%R. intros n.
    replace (INR (S n) ^ S k * q ^ n)%R with ((INR (S n) ^ k * sqrt q ^ n) * (INR (S n) * sqrt q ^ n))%R.
    2:{ rewrite <- (sqrt_sqrt q) at 3 by lra. rewrite Rpow_mult_distr, <- tech_pow_Rmult. ring. }
    assert (P := pos_INR (S n)). apply Rmult_le_compat; [apply Rmult_le_pos; apply pow_le; lra|apply Rmult_le_pos; [exact P|apply pow_le; lra]|apply HB|apply npow_bound, Hs].
Qed.
Lemma poly_geom_lim (k : nat) q : (0 <= q < 1)%R -> is_lim_seq (fun n => INR (S n) ^ k * q ^ n)%R 0%R.
Proof.
  intros Hq. assert (Hs : (0 <= sqrt q < 1)%R). { split; [apply sqrt_pos|]. rewrite <- sqrt_1. apply sqrt_lt_1; lra. }
  destruct (poly_geom_bound k (sqrt q) Hs) as [B HB].
  apply (is_lim_seq_le_le (fun _ => 0%R) _ (fun n => B * sqrt q ^ n)%R).
  - intros n. assert (P := pos_INR (S n)). split; [apply Rmult_le_pos; apply pow_le; lra|].
    replace (q ^ n)%R with (sqrt q ^ n * sqrt q ^ n)%R by (rewrite <- Rpow_mult_distr, sqrt_sqrt by lra; reflexivity).
    rewrite <- Rmult_assoc. apply Rmult_le_compat_r; [apply pow_le; lra|apply HB].
  - apply is_lim_seq_const.
  - replace 0%R with (B * 0)%R by ring. apply (is_lim_seq_scal_l _ B 0%R), is_lim_seq_geom. rewrite Rabs_pos_eq; lra.
Qed.
Lemma err_bound_lim L a b : (0 <= L)%Z -> (0 <= a < b)%R -> is_lim_seq (err_bound L a b) 0%R.
Proof.
  intros HL H. set (l := Z.to_nat L). set (c := (3 * (2 * IZR L + 2) ^ l * (a / (b - a) ^ Z.to_nat (L + 2)))%R).
  assert (Hq : (0 <= a / b < 1)%R). { split; [apply Rdiv_le_0_compat; lra|]. apply (Rmult_lt_reg_r b); [lra|]. replace (a / b * b)%R with a by (field; lra). lra. }
  assert (HL' : (0 <= IZR L)%R) by (apply (IZR_le 0); lia).
  assert (Ha : (0 <= a / (b - a) ^ Z.to_nat (L + 2))%R) by (apply Rdiv_le_0_compat; [lra|apply pow_lt; lra]).
  apply (is_lim_seq_le_le (fun _ => 0%R) _ (fun n => c * (INR (S n) ^ (l + 2) * (a / b) ^ n))%R).
  - intros n. unfold err_bound. fold l. assert (P := pos_INR n). assert (HP : (1 <= INR (S n))%R) by (rewrite S_INR; lra).
    assert (Hqn : (0 <= (a / b) ^ n)%R) by (apply pow_le; lra).
    assert (Hi : IZR (2 * L + 2 * Z.of_nat (S n)) = (2 * IZR L + 2 * INR (S n))%R) by (rewrite plus_IZR, !mult_IZR, <- INR_IZR_INZ; reflexivity).
    assert (Hj : IZR (2 * Z.of_nat (S n) + 1) = (2 * INR (S n) + 1)%R) by (rewrite plus_IZR, mult_IZR, <- INR_IZR_INZ; reflexivity).
    rewrite Hi, Hj. assert (Hk : (0 <= (2 * IZR L + 2 * INR (S n)) ^ l <= (2 * IZR L + 2) ^ l * INR (S n) ^ l)%R).
    { split; [apply pow_le; lra|]. rewrite <- Rpow_mult_distr. apply pow_incr. nra. }
    set (N := INR (S n)) in *. split.
    + apply Rmult_le_pos; [apply Rmult_le_pos; [apply Rmult_le_pos; [lra|apply Rmult_le_pos; lra]|exact Hqn]|exact Ha].
    + unfold c. rewrite pow_add. set (x := ((2 * IZR L + 2 * N) ^ l)%R) in *. set (y := ((2 * IZR L + 2) ^ l)%R) in *. set (z := (N ^ l)%R) in *. set (u := (a / (b - a) ^ _)%R) in *. set (w := ((a / b) ^ n)%R) in *.
      replace (3 * y * u * (z * N ^ 2 * w))%R with (N * (3 * N * (y * z)) * w * u)%R by ring.
      apply Rmult_le_compat_r; [exact Ha|]. apply Rmult_le_compat_r; [exact Hqn|]. apply Rmult_le_compat_l; [lra|]. apply Rmult_le_compat; lra.
  - apply is_lim_seq_const.
  - replace 0%R with (c * 0)%R by ring. apply (is_lim_seq_scal_l _ c 0%R), poly_geom_lim, Hq.
Qed.

(* ---- outer moments ---- *)
Lemma I_K l m v : (Z.abs m <= l)%Z -> (0 < vnorm v)%R -> I_ l m v = RtoC (/ (4 * PI)) * K_ l m v.
Proof.
  intros H Hv. unfold I_, hatQ, isolid, K_, U_. rewrite rsolid_S, Cconj_mult, Cconj_RtoC. rewrite (S_symm l m).
  set (r := (vnorm v ^ Z.to_nat (2 * l + 1))%R). assert (Hr : (0 < r)%R) by now apply pow_lt.
  assert (P := PI_RGT_0). assert (Hl : (0 <= IZR l)%R) by (apply (IZR_le 0); lia).
  transitivity (RtoC (nrm l m * nrm l m / (2 * IZR l + 1)) * RtoC (/ r) * Cconj (S_ l m v)).
  - unfold Cdiv. rewrite <- RtoC_inv by lra. unfold Rdiv. rewrite !RtoC_mult. ring.
  - rewrite nrm_wfac by assumption. replace ((2 * IZR l + 1) / (4 * PI) * wfac l m / (2 * IZR l + 1))%R with (/ (4 * PI) * wfac l m)%R by (field; lra).
    rewrite RtoC_mult. transitivity (RtoC (/ (4 * PI)) * RtoC (wfac l m) * (sgnC m * sgnC m) * RtoC (/ r) * Cconj (S_ l m v)); [rewrite sgnC_sq; ring|ring].
Qed.
Lemma isolid_K l m v : (Z.abs m <= l)%Z -> (0 < vnorm v)%R -> isolid l m v = RtoC (outer_norm l m) * K_ l m v.
Proof.
  intros H Hv. assert (E := I_K l m v H Hv). unfold I_, hatQ in E. assert (Hl : (0 <= IZR l)%R) by (apply (IZR_le 0); lia). assert (P := PI_RGT_0). assert (Hn := nrm_neq0 l m ltac:(lia)).
  replace (isolid l m v) with (isolid l m v * RtoC (nrm l m / (2 * IZR l + 1)) * RtoC ((2 * IZR l + 1) / nrm l m)).
  - rewrite E. unfold outer_norm. replace ((2 * IZR l + 1) / (4 * PI * nrm l m))%R with (/ (4 * PI) * ((2 * IZR l + 1) / nrm l m))%R by (field; lra). rewrite RtoC_mult. ring.
  - rewrite <- Cmult_assoc, <- RtoC_mult. replace (nrm l m / (2 * IZR l + 1) * ((2 * IZR l + 1) / nrm l m))%R with 1%R by (field; lra). ring.
Qed.
Lemma outer_norm_pos L M : (Z.abs M <= L)%Z -> (0 < outer_norm L M)%R.
Proof.
  intros H. unfold outer_norm. assert (P := PI_RGT_0). assert (N := nrm_pos L M ltac:(lia)). assert (Hl : (0 <= IZR L)%R) by (apply (IZR_le 0); lia).
  apply Rdiv_lt_0_compat; [lra|]. apply Rmult_lt_0_compat; lra.
Qed.
