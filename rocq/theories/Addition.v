(* The addition theorem of the solid harmonics, from the rotation of the moments. *)
From Coq Require Import Reals Lra Lia ZArith List.
From Verif Require Import Props_Multipole Props_Torque Legendre Props_TransRec TransRecProofs RotationsProofs2 RotSpec.
From Verif Require Import Cplx.
Open Scope C_scope.

Lemma Cmul_reg (a x y : C) : a <> 0 -> a * x = a * y -> x = y.
Proof. intros H E. transitivity (a * x / a); [field; exact H|]. rewrite E. field. exact H. Qed.
Definition vsq (v : vec) : R := vdot v v.
Lemma vdot_comm a b : vdot a b = vdot b a.
Proof. destruct a as [[a1 a2] a3], b as [[b1 b2] b3]. unfold vdot. ring. Qed.
Lemma v3 (a b c a' b' c' : R) : a = a' -> b = b' -> c = c' -> (a, b, c) = (a', b', c').
Proof. now intros -> -> ->. Qed.
Lemma zrot_inv' a v : zrot a (zrot (- a) v) = v.
Proof.
  destruct v as [[x y] z]. unfold zrot. rewrite cos_neg, sin_neg. assert (E := sin2_cos2 a). unfold Rsqr in E. apply v3.
  - transitivity ((sin a * sin a + cos a * cos a) * x)%R; [ring|rewrite E; ring].
  - transitivity ((sin a * sin a + cos a * cos a) * y)%R; [ring|rewrite E; ring].
  - reflexivity.
Qed.
Lemma yrot_inv' a v : yrot a (yrot (- a) v) = v.
Proof.
  destruct v as [[x y] z]. unfold yrot. rewrite cos_neg, sin_neg. assert (E := sin2_cos2 a). unfold Rsqr in E. apply v3.
  - transitivity ((sin a * sin a + cos a * cos a) * x)%R; [ring|rewrite E; ring].
  - reflexivity.
  - transitivity ((sin a * sin a + cos a * cos a) * z)%R; [ring|rewrite E; ring].
Qed.
Lemma vdot_euler a b g v w : vdot (euler a b g v) (euler a b g w) = vdot v w.
Proof.
  destruct v as [[x y] z], w as [[x' y'] z']. unfold euler, zrot, yrot, vdot.
  assert (E1 := sin2_cos2 a). assert (E2 := sin2_cos2 b). assert (E3 := sin2_cos2 g). unfold Rsqr in *.
  set (ca := cos a) in *. set (sa := sin a) in *. set (cb := cos b) in *. set (sb := sin b) in *. set (cg := cos g) in *. set (sg := sin g) in *.
  clearbody ca sa cb sb cg sg.
  set (X := (cg * x - sg * y)%R). set (Y := (sg * x + cg * y)%R). set (X' := (cg * x' - sg * y')%R). set (Y' := (sg * x' + cg * y')%R).
  transitivity (X * X' + Y * Y' + z * z')%R.
  - transitivity ((sa * sa + ca * ca) * (Y * Y' + (cb * X + sb * z) * (cb * X' + sb * z')) + (cb * z - sb * X) * (cb * z' - sb * X'))%R; [unfold X, Y, X', Y'; ring|].
    rewrite E1. transitivity (Y * Y' + (sb * sb + cb * cb) * (X * X' + z * z'))%R; [ring|]. rewrite E2. ring.
  - transitivity ((sg * sg + cg * cg) * (x * x' + y * y') + z * z')%R; [unfold X, Y, X', Y'; ring|]. rewrite E3. ring.
Qed.
Lemma solid_m0 (n : nat) x y z : RtoC (zfact (Z.of_nat n)) * solid (Z.of_nat n) 0 x y z = RtoC (HL z (x * x + y * y + z * z) n).
Proof.
  revert n. apply nat_ind2.
  - rewrite solid_00, HL_0. change (Z.of_nat 0) with 0%Z. rewrite zfact_0. ring.
  - rewrite HL_1. change (Z.of_nat 1) with 1%Z. rewrite solid_10. rewrite zfact_1. ring.
  - intros n I0 I1. unfold solid in *. set (A := - (RtoC x - Ci * RtoC y) / RtoC 2) in *. set (B := (RtoC x + Ci * RtoC y) / RtoC 2) in *.
    assert (E := tri_rec_l (Z.of_nat (S (S n))) 0 A (RtoC z) B).
    replace (RtoC z * RtoC z - RtoC 4 * A * B) with (RtoC (x * x + y * y + z * z)) in E.
    2:{ unfold A, B. rewrite !RtoC_plus, !RtoC_mult. transitivity (RtoC z * RtoC z + (RtoC x * RtoC x - Ci * Ci * RtoC y * RtoC y)).
        - replace (Ci * Ci) with (- RtoC 1) by (apply C_eq; simpl; ring). ring.
        - field. }
    replace (Z.of_nat (S (S n)) - 1)%Z with (Z.of_nat (S n)) in E by lia. replace (Z.of_nat (S (S n)) - 2)%Z with (Z.of_nat n) in E by lia.
    replace ((Z.of_nat (S (S n)) + 0) * (Z.of_nat (S (S n)) - 0))%Z with (Z.of_nat (S (S n)) * Z.of_nat (S (S n)))%Z in E by ring.
    assert (F := zfact_nonneg_succ (S n)). assert (F' := zfact_nonneg_succ n).
    set (T2 := tri _ _ _ _ _) in E |- *. set (T1 := tri _ _ _ _ _) in E, I1. set (T0 := tri _ _ _ _ _) in E, I0.
    rewrite mult_IZR in E. rewrite <- !INR_IZR_INZ in E.
    replace (IZR (2 * Z.of_nat (S (S n)) - 1)) with (2 * INR n + 3)%R in E by (rewrite minus_IZR, mult_IZR, <- INR_IZR_INZ, !S_INR; ring).
    assert (Hp := pos_INR n). assert (H2 : RtoC (INR n + 2) <> 0) by (apply RtoC_neq0; lra).
    assert (R2 : RtoC (INR (S (S n))) = RtoC (INR n + 2)) by (rewrite !S_INR; f_equal; ring).
    apply (Cmul_reg (RtoC (INR n + 2))); [exact H2|].
    rewrite <- RtoC_mult, HL_SS, RtoC_minus, !RtoC_mult. rewrite <- I0, <- I1. rewrite F, RtoC_mult, R2.
    rewrite F', !RtoC_mult in *. rewrite R2 in E.
    transitivity (RtoC (INR (S n)) * RtoC (zfact (Z.of_nat n)) * (RtoC (INR n + 2) * RtoC (INR n + 2) * T2)); [ring|].
    rewrite E. replace (RtoC (INR (S n))) with (RtoC (INR n + 1)) by (now rewrite S_INR). ring.
Qed.
Lemma nrm_0 l : (0 <= l)%Z -> nrm l 0 = (sqrt ((2 * IZR l + 1) / (4 * PI)) * zfact l)%R.
Proof.
  intros Hl. rewrite nrm_gg by assumption. f_equal. unfold gg. rewrite Z.add_0_r, Z.sub_0_r. apply sqrt_square. apply Rlt_le, zfact_pos.
Qed.
Definition kap (l : Z) : R := sqrt ((2 * IZR l + 1) / (4 * PI)).
Lemma kap_sq l : (0 <= l)%Z -> (kap l * kap l = (2 * IZR l + 1) / (4 * PI))%R.
Proof.
  intros Hl. apply sqrt_sqrt. apply IZR_le in Hl. apply Rlt_le, Rdiv_lt_0_compat; [lra|]. assert (H := PI_RGT_0). lra.
Qed.
Lemma rsolid_m0 l v : (0 <= l)%Z -> rsolid l 0 v = RtoC (kap l * HL (vdot v (0, 0, 1)%R) (vsq v) (Z.to_nat l)).
Proof.
  intros Hl. destruct v as [[x y] z]. unfold rsolid. rewrite nrm_0 by assumption. fold (kap l). rewrite RtoC_mult, <- Cmult_assoc.
  assert (E := solid_m0 (Z.to_nat l) x y z). rewrite Z2Nat.id in E by assumption. rewrite E, <- RtoC_mult. f_equal. f_equal. unfold vsq, vdot. f_equal; ring.
Qed.
Lemma HL_scal d q c n : HL (c * d) (c * c * q) n = (c ^ n * HL d q n)%R.
Proof.
  revert n. apply nat_ind2; [rewrite !HL_0; simpl; ring|rewrite !HL_1; simpl; ring|].
  intros n I0 I1. assert (Hp := pos_INR n). apply (Rmult_eq_reg_l (INR n + 2)); [|lra]. rewrite HL_SS, I0, I1.
  replace ((INR n + 2) * (c ^ S (S n) * HL d q (S (S n))))%R with (c ^ S (S n) * ((INR n + 2) * HL d q (S (S n))))%R by ring. rewrite HL_SS. simpl. ring.
Qed.
(* addition theorem when the second vector is on the z axis *)
Lemma addition_axis l v r : (0 <= l)%Z ->
  zsum (- l) (l + 1) (fun m => rsolid l m v * Cconj (rsolid l m (0, 0, r)%R)) = RtoC ((2 * IZR l + 1) / (4 * PI) * HL (vdot v (0, 0, r)%R) (vsq v * vsq (0, 0, r)%R) (Z.to_nat l)).
Proof.
  intros Hl. rewrite (zsum_single _ _ 0); [|lia|].
  - rewrite !rsolid_m0 by assumption. rewrite Cconj_RtoC, <- RtoC_mult. f_equal. rewrite <- kap_sq by assumption.
    replace (HL (vdot (0, 0, r)%R (0, 0, 1)%R) (vsq (0, 0, r)%R) (Z.to_nat l)) with (r ^ Z.to_nat l)%R.
    + replace (HL (vdot v (0, 0, r)%R) (vsq v * vsq (0, 0, r)%R) (Z.to_nat l)) with (r ^ Z.to_nat l * HL (vdot v (0, 0, 1)%R) (vsq v) (Z.to_nat l))%R; [ring|].
      rewrite <- HL_scal. f_equal; destruct v as [[x y] z]; unfold vsq, vdot; ring.
    + replace (vdot (0, 0, r)%R (0, 0, 1)%R) with (r * 1)%R by (unfold vdot; ring). replace (vsq (0, 0, r)%R) with (r * r * 1)%R by (unfold vsq, vdot; ring).
      rewrite HL_scal. assert (E : forall n, HL 1 1 n = 1%R); [|rewrite E; ring].
      apply nat_ind2; [reflexivity|reflexivity|]. intros n I0 I1. assert (Hp := pos_INR n). apply (Rmult_eq_reg_l (INR n + 2)); [|lra].
      rewrite HL_SS, I0, I1. ring.
  - intros m Hm Hn. rewrite (rsolid_S l m (0, 0, r)%R), S_axis by assumption. rewrite (proj2 (Z.eqb_neq m 0)) by assumption. rewrite Cmult_0_r, Cconj_RtoC. ring.
Qed.
(* the sum is invariant under rotations *)
Lemma addition_euler a b g l v w : (0 <= l)%Z ->
  zsum (- l) (l + 1) (fun m => rsolid l m (euler a b g v) * Cconj (rsolid l m (euler a b g w))) = zsum (- l) (l + 1) (fun m => rsolid l m v * Cconj (rsolid l m w)).
Proof.
  intros Hl.
  rewrite (zsum_ext _ _ _ (fun n => zsum (- l) (l + 1) (fun m => zsum (- l) (l + 1) (fun k => rsolid l m v * Cconj (rsolid l k w) * (Cconj (DD a b g l n k) * DD a b g l n m))))).
  - rewrite zsum_swap. apply zsum_ext. intros m Hm. rewrite zsum_swap.
    rewrite (zsum_single _ _ m); [|lia|].
    + rewrite zsum_scal_l, DD_unitary', Z.eqb_refl by lia. ring.
    + intros k Hk Hn. rewrite zsum_scal_l, DD_unitary', (proj2 (Z.eqb_neq k m)) by lia. ring.
  - intros n Hn. rewrite !rsolid_euler by lia. rewrite zsum_conj, <- zsum_scal_r. apply zsum_ext. intros m Hm.
    rewrite <- zsum_scal_l. apply zsum_ext. intros k Hk. rewrite Cconj_mult. ring.
Qed.
Lemma addition l v w : (0 <= l)%Z -> vnorm w <> 0%R ->
  zsum (- l) (l + 1) (fun m => rsolid l m v * Cconj (rsolid l m w)) = RtoC ((2 * IZR l + 1) / (4 * PI) * HL (vdot v w) (vsq v * vsq w) (Z.to_nat l)).
Proof.
  intros Hl Hw. assert (E := euler_axis w Hw). set (a := tphi w) in *. set (b := ttheta w) in *.
  assert (V : exists u, euler a b a u = v).
  { exists (euler (- a) (- b) (- a) v). unfold euler. now rewrite zrot_inv', yrot_inv', zrot_inv'. }
  destruct V as (u & <-). rewrite <- E. rewrite addition_euler, addition_axis by assumption. unfold vsq. now rewrite !vdot_euler.
Qed.
