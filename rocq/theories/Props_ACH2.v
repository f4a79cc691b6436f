(* C12 for qlmACH: the monopole of each closed-form table is density times volume over sqrt(4 pi). *)
From Coq Require Import Reals Lra Lia ZArith List Bool.
From Coquelicot Require Import Coquelicot.
From Verif Require Import QlmACH AchTab AchSpec AchProofs.
From Verif Require Import Cplx.
Open Scope R_scope.

(* what the caller gets, and the volume of the solid described in the docstring *)
Inductive ach_solid (L : Z) (rho : R) : R -> res marr -> Prop :=
| sol_rect x y z : ach_solid L rho (x * y * z) (ach_rect_prism L rho x y z)
| sol_annulus H Ri Ro pc ph : ach_solid L rho (H * ph * (Ro ^ 2 - Ri ^ 2)) (ach_annulus L rho H Ri Ro pc ph)
| sol_cone h r1 r2 : ach_solid L rho (PI * h * (r1 ^ 2 + r1 * r2 + r2 ^ 2) / 3) (ach_cone L rho h r1 r2)
| sol_cone2 h r1 r2 : ach_solid L rho (PI * h * (r1 ^ 2 + r1 * r2 + r2 ^ 2) / 3) (ach_cone2 L rho h r1 r2)
| sol_tri h d y1 y2 : ach_solid L rho (h * (Rabs d * Rabs (y1 - y2) / 2)) (ach_tri_prism L rho h d y1 y2)
| sol_trap t w1 w2 h : ach_solid L rho (t * (h * (w1 + w2) / 2)) (ach_trapezoid L rho t w1 w2 h)
| sol_segment t r d : ach_solid L rho (t * (r ^ 2 * acos (d / r) - d * sqrt (r ^ 2 - d ^ 2))) (ach_cylindrical_section L rho t r d)
| sol_tetra x y z : ach_solid L rho (x * y * z / 6) (ach_tetrahedron L rho x y z)
| sol_pyramid h x y : ach_solid L rho (h * (x * y) / 3) (ach_pyramid L rho h x y)
| sol_platehole t r th : ach_solid L rho (PI * r ^ 2 * (t / cos th)) (ach_platehole L rho t r th).

Lemma rle_no a b : rle a b = false <-> b < a.
Proof. unfold rle. destruct (Rle_dec a b); split; intros; try discriminate; try lra; reflexivity. Qed.
Lemma rlt_no a b : rlt a b = false <-> b <= a.
Proof. unfold rlt. destruct (Rlt_dec a b); split; intros; try discriminate; try lra; reflexivity. Qed.
Lemma is0_f x : is0 x = false -> x <> 0. Proof. unfold is0. destruct (Req_EM_T x 0); [discriminate|auto]. Qed.
Lemma sq4 : sqrt (4 * PI) = 2 * sqrt PI.
Proof. rewrite sqrt_mult by (assert (P := PI_RGT_0); lra). replace 4 with (2 * 2) by ring. now rewrite sqrt_square by lra. Qed.
Lemma sqpi : sqrt PI * sqrt PI = PI. Proof. apply sqrt_sqrt. assert (P := PI_RGT_0). lra. Qed.
Lemma sqpos : 0 < sqrt PI. Proof. apply sqrt_lt_R0, PI_RGT_0. Qed.
Lemma mono L tab v : (0 <= L)%Z -> tabwf tab = true -> tabf tab 0 0 = RtoC v -> mom (ach_finish L tab) 0 0 = RtoC v.
Proof. intros HL W E. rewrite (ach_entry L tab 0 0) by (assumption || lia). cbn [Z.eqb]. rewrite E. reflexivity. Qed.

Lemma pick L tab (v w : R) q : (0 <= L)%Z -> Ok (ach_finish L tab) = Ok q -> tabwf tab = true -> tabf tab 0 0 = RtoC v -> v = w -> mom q 0 0 = RtoC w.
Proof. intros HL E W T <-. apply Ok_inj in E. subst q. now apply mono. Qed.
Theorem C12_ach_monopole : forall L rho V r q, (0 <= L)%Z -> ach_solid L rho V r -> r = Ok q -> mom q 0 0 = RtoC (rho * V / sqrt (4 * PI)).
Proof.
  intros L rho V r q HL H. assert (P := sqpos). assert (P2 := sqpi).
  destruct H; unfold ach_rect_prism, ach_annulus, ach_cone, ach_cone2, ach_tri_prism, ach_trapezoid, ach_cylindrical_section, ach_tetrahedron, ach_platehole, ach_pyramid;
  match goal with |- (if ?b then _ else _) = _ -> _ => destruct b eqn:G; [discriminate|] end; intros E.
  - eapply (pick _ _ _ _ _ HL E); [reflexivity|reflexivity|]. cbv beta zeta. unfold Rdiv. ring.
  - eapply (pick _ _ _ _ _ HL E); [reflexivity|reflexivity|]. cbv beta zeta. rewrite sq4. field. lra.
  - eapply (pick _ _ _ _ _ HL E); [reflexivity|reflexivity|]. cbv beta zeta. rewrite sq4. set (p := sqrt PI) in *. clearbody p. rewrite <- P2. field. lra.
  - eapply (pick _ _ _ _ _ HL E); [reflexivity|reflexivity|]. cbv beta zeta. rewrite sq4. set (p := sqrt PI) in *. clearbody p. rewrite <- P2. field. lra.
  - eapply (pick _ _ _ _ _ HL E); [reflexivity|reflexivity|]. cbv beta zeta. rewrite sq4, Rabs_mult. field. lra.
  - destruct (is0 _) in E; [discriminate E|]. eapply (pick _ _ _ _ _ HL E); [reflexivity|reflexivity|]. cbv beta zeta. rewrite sq4. field. lra.
  - apply orb_false_elim in G. destruct G as [G G3]. apply orb_false_elim in G. destruct G as [G1 G2]. apply rle_no in G1, G2, G3.
    eapply (pick _ _ _ _ _ HL E); [reflexivity|reflexivity|]. cbv beta.
    assert (Q : sqrt (r ^ 2 - d ^ 2) = r * sqrt (1 - (d / r) ^ 2)).
    { replace (r ^ 2 - d ^ 2) with (r ^ 2 * (1 - (d / r) ^ 2)) by (field; lra). rewrite sqrt_mult.
      - now rewrite sqrt_pow2 by lra.
      - apply pow2_ge_0.
      - replace (1 - (d / r) ^ 2) with ((r ^ 2 - d ^ 2) / r ^ 2) by (field; lra). apply Rlt_le, Rdiv_lt_0_compat; nra. }
    rewrite Q, sq4. field. lra.
  - eapply (pick _ _ _ _ _ HL E); [reflexivity|reflexivity|]. cbv beta zeta. rewrite sq4. field. lra.
  - eapply (pick _ _ _ _ _ HL E); [reflexivity|reflexivity|]. cbv beta zeta. rewrite sq4. field. lra.
  - apply orb_false_elim in G. destruct G as [_ G]. apply rlt_no in G.
    destruct (is0 _) eqn:G2 in E; [discriminate E|]. eapply (pick _ _ _ _ _ HL E); [reflexivity|reflexivity|]. cbv beta.
    assert (Cn : cos th <> 0) by now apply is0_f. assert (Cp : 0 <= cos th) by (apply Rabs_le_between in G; apply cos_ge_0; lra).
    assert (Q : sqrt (PI * (1 + tan th ^ 2)) = sqrt PI / cos th).
    { replace (PI * (1 + tan th ^ 2)) with (PI * (/ cos th) ^ 2).
      - rewrite sqrt_mult by (try apply pow2_ge_0; assert (X := PI_RGT_0); lra). rewrite sqrt_pow2; [reflexivity|]. apply Rlt_le, Rinv_0_lt_compat. lra.
      - f_equal. unfold tan. assert (T := sin2_cos2 th). unfold Rsqr in T. replace (1 + (sin th / cos th) ^ 2) with ((sin th * sin th + cos th * cos th) / cos th ^ 2) by (field; exact Cn). rewrite T. field. exact Cn. }
    rewrite Q, sq4. set (p := sqrt PI) in *. clearbody p. rewrite <- P2. field. lra.
Qed.
Print Assumptions C12_ach_monopole.
(* the hypotheses are met *)
Example C12_ach_case : exists q, ach_cylindrical_section 3 2 1 2 1 = Ok q /\ mom q 0 0 = RtoC (2 * (1 * (2 ^ 2 * acos (1 / 2) - 1 * sqrt (2 ^ 2 - 1 ^ 2))) / sqrt (4 * PI)).
Proof.
  assert (E : exists q, ach_cylindrical_section 3 2 1 2 1 = Ok q). { unfold ach_cylindrical_section. rewrite !(proj2 (rle_no _ _)) by lra. eexists. reflexivity. }
  destruct E as (q & E). exists q. split; [exact E|]. apply (C12_ach_monopole 3 2 _ _ q ltac:(lia) (sol_segment 3 2 1 2 1) E).
Qed.
