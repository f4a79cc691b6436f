(* Towards C82: polynomials in three variables; arrays that integrate them exactly. *)
From Coq Require Import Reals Lra Lia ZArith List.
From Coquelicot Require Import Coquelicot.
From Verif Require Import Sums MathSpec Solid MomentSpec VInt TranslationsProofs SolidSpec QlmProofs QlmProofs3 QlmProofs6 Props_GL.
From Verif Require Import Glib GlibSpec GlibProofs GlibProofs2 ShapeSpec ShapesProofs Props_Shapes2 BodySpec PointSpec Props_GlibShapes Refine3 Refine6 Fine Fine2 Budget QuadSpec.
From Verif Require Import Cplx.
Import ListNotations.
Open Scope C_scope.

(* polynomials of degree at most n *)
Inductive pol3 : nat -> (R -> R -> R -> C) -> Prop :=
| p_const n c : pol3 n (fun _ _ _ => c)
| p_x n f : pol3 n f -> pol3 (S n) (fun x y z => RtoC x * f x y z)
| p_y n f : pol3 n f -> pol3 (S n) (fun x y z => RtoC y * f x y z)
| p_z n f : pol3 n f -> pol3 (S n) (fun x y z => RtoC z * f x y z)
| p_add n f g : pol3 n f -> pol3 n g -> pol3 n (fun x y z => f x y z + g x y z)
| p_scal n c f : pol3 n f -> pol3 n (fun x y z => c * f x y z)
| p_more n f : pol3 n f -> pol3 (S n) f
| p_ext n f g : (forall x y z, f x y z = g x y z) -> pol3 n f -> pol3 n g.
Lemma pol3_le n m f : (n <= m)%nat -> pol3 n f -> pol3 m f.
Proof. induction 1; [auto|]. intros H1. apply p_more. auto. Qed.
Lemma pol3_conj n f : pol3 n f -> pol3 n (fun x y z => Cconj (f x y z)).
Proof.
  induction 1 as [n c|n f H IH|n f H IH|n f H IH|n f g Hf IHf Hg IHg|n c f H IH|n f H IH|n f g E H IH].
  - apply p_const.
  - eapply p_ext; [|exact (p_x _ _ IH)]. intros x y z. cbn beta. now rewrite Cconj_mult, Cconj_RtoC.
  - eapply p_ext; [|exact (p_y _ _ IH)]. intros x y z. cbn beta. now rewrite Cconj_mult, Cconj_RtoC.
  - eapply p_ext; [|exact (p_z _ _ IH)]. intros x y z. cbn beta. now rewrite Cconj_mult, Cconj_RtoC.
  - eapply p_ext; [|exact (p_add _ _ _ IHf IHg)]. intros x y z. cbn beta. now rewrite Cconj_plus.
  - eapply p_ext; [|exact (p_scal _ (Cconj c) _ IH)]. intros x y z. cbn beta. now rewrite Cconj_mult.
  - now apply p_more.
  - eapply p_ext; [|exact IH]. intros x y z. cbn beta. now rewrite E.
Qed.
(* in other coordinates *)
Definition affine (u : vec -> R) : Prop := exists a b c d : R, forall x y z, u (x, y, z) = (a + b * x + c * y + d * z)%R.
Lemma pol3_times n f u : affine u -> pol3 n f -> pol3 (S n) (fun x y z => RtoC (u (x, y, z)) * f x y z).
Proof.
  intros (a & b & c & d & E) H. apply (p_ext _ (fun x y z => (RtoC a * f x y z + RtoC b * (RtoC x * f x y z)) + (RtoC c * (RtoC y * f x y z) + RtoC d * (RtoC z * f x y z)))).
  - intros x y z. rewrite E, !RtoC_plus, !RtoC_mult. ring.
  - apply p_add; apply p_add; apply p_scal; [now apply p_more|now apply p_x|now apply p_y|now apply p_z].
Qed.
Lemma pol3_subst n f (U V W : vec -> R) : affine U -> affine V -> affine W -> pol3 n f -> pol3 n (fun x y z => f (U (x, y, z)) (V (x, y, z)) (W (x, y, z))).
Proof.
  intros HU HV HW H. induction H as [n c|n f H IH|n f H IH|n f H IH|n f g Hf IHf Hg IHg|n c f H IH|n f H IH|n f g E H IH].
  - apply p_const.
  - now apply (pol3_times n (fun x y z => f (U (x, y, z)) (V (x, y, z)) (W (x, y, z))) U).
  - now apply (pol3_times n (fun x y z => f (U (x, y, z)) (V (x, y, z)) (W (x, y, z))) V).
  - now apply (pol3_times n (fun x y z => f (U (x, y, z)) (V (x, y, z)) (W (x, y, z))) W).
  - now apply p_add.
  - now apply p_scal.
  - now apply p_more.
  - eapply p_ext; [|exact IH]. intros x y z. apply E.
Qed.
(* what holds of the monomials, of sums and multiples, holds of polynomials *)
Lemma pol3_spanned (Q : (R -> R -> R -> C) -> Prop) (N : nat) :
  (forall f g, (forall x y z, f x y z = g x y z) -> Q f -> Q g) -> (forall c f, Q f -> Q (fun x y z => c * f x y z)) -> (forall f g, Q f -> Q g -> Q (fun x y z => f x y z + g x y z)) ->
  (forall a b c, (a + b + c <= N)%nat -> Q (fun x y z => RtoC (x ^ a * y ^ b * z ^ c)%R)) -> forall f, pol3 N f -> Q f.
Proof.
  intros QE QS QP QM. assert (G : forall n f, pol3 n f -> forall a b c, (n + a + b + c <= N)%nat -> Q (fun x y z => RtoC (x ^ a * y ^ b * z ^ c)%R * f x y z)).
  { intros n f H. induction H as [n k|n f H IH|n f H IH|n f H IH|n f g Hf IHf Hg IHg|n k f H IH|n f H IH|n f g E H IH]; intros a b c L.
    - eapply QE; [|apply (QS k); apply (QM a b c); lia]. intros x y z. cbn beta. ring.
    - eapply QE; [|apply (IH (S a) b c); lia]. intros x y z. cbn beta. cbn [pow]. rewrite !RtoC_mult. ring.
    - eapply QE; [|apply (IH a (S b) c); lia]. intros x y z. cbn beta. cbn [pow]. rewrite !RtoC_mult. ring.
    - eapply QE; [|apply (IH a b (S c)); lia]. intros x y z. cbn beta. cbn [pow]. rewrite !RtoC_mult. ring.
    - eapply QE; [|apply (QP _ _ (IHf a b c L) (IHg a b c L))]. intros x y z. cbn beta. ring.
    - eapply QE; [|apply (QS k _ (IH a b c L))]. intros x y z. cbn beta. ring.
    - apply IH. lia.
    - eapply QE; [|apply (IH a b c L)]. intros x y z. cbn beta. now rewrite E. }
  intros f H. eapply QE; [|apply (G N f H 0%nat 0%nat 0%nat); lia]. intros x y z. cbn beta. cbn [pow]. rewrite !Rmult_1_r. ring.
Qed.
(* the solid harmonics are polynomials *)
Lemma pol3_pow n f a b c : pol3 n f -> pol3 (a + b + c + n) (fun x y z => RtoC (x ^ a * y ^ b * z ^ c)%R * f x y z).
Proof.
  intros H. revert b c. induction a as [|a IHa]; intros b c; [|eapply p_ext; [|exact (p_x _ _ (IHa b c))]; intros x y z; cbn beta; cbn [pow]; rewrite !RtoC_mult; ring].
  induction b as [|b IHb]; [|eapply p_ext; [|exact (p_y _ _ IHb)]; intros x y z; cbn beta; cbn [pow]; rewrite !RtoC_mult; ring].
  induction c as [|c IHc]; [|eapply p_ext; [|exact (p_z _ _ IHc)]; intros x y z; cbn beta; cbn [pow]; rewrite !RtoC_mult; ring].
  eapply p_ext; [|exact H]. intros x y z. cbn beta. cbn [pow]. rewrite !Rmult_1_r. ring.
Qed.
Lemma pol3_mono a b c : (0 <= a)%Z -> (0 <= b)%Z -> (0 <= c)%Z -> pol3 (Z.to_nat (a + b + c)) (mono a b c).
Proof.
  intros Ha Hb Hc. assert (H := pol3_pow 0 (fun _ _ _ => RtoC (/ zfact c)) (Z.to_nat a) (Z.to_nat b) (Z.to_nat c) (p_const _ _)).
  replace (Z.to_nat (a + b + c)) with (Z.to_nat a + Z.to_nat b + Z.to_nat c + 0)%nat by lia. eapply p_ext; [|exact H]. intros x y z. cbn beta. unfold mono. rewrite dp_RtoC, !pw_nonneg by assumption.
  rewrite <- !RtoC_mult. f_equal. unfold Rdiv. ring.
Qed.
Lemma pol3_zsum n lo hi (F : Z -> R -> R -> R -> C) : (forall k, (lo <= k < hi)%Z -> pol3 n (F k)) -> pol3 n (fun x y z => zsum lo hi (fun k => F k x y z)).
Proof.
  intros H. destruct (Z_lt_le_dec lo hi) as [L|L].
  - assert (G : forall k, (lo <= k <= hi)%Z -> pol3 n (fun x y z => zsum lo k (fun j => F j x y z))).
    { intros k Hk. assert (E : k = (lo + Z.of_nat (Z.to_nat (k - lo)))%Z) by lia. rewrite E in *. clear E. generalize dependent (Z.to_nat (k - lo)). intros m Hm. induction m as [|m IH].
      - eapply p_ext; [|apply (p_const n 0)]. intros x y z. rewrite zsum_empty by lia. reflexivity.
      - eapply p_ext; [|apply p_add; [apply IH; lia|apply (H (lo + Z.of_nat m)%Z); lia]]. intros x y z. cbn beta. replace (lo + Z.of_nat (S m))%Z with ((lo + Z.of_nat m) + 1)%Z by lia. rewrite zsum_last by lia. reflexivity. }
    apply G. lia.
  - eapply p_ext; [|apply (p_const n 0)]. intros x y z. rewrite zsum_empty by lia. reflexivity.
Qed.
Lemma pol3_rsolid l m : (Z.abs m <= l)%Z -> pol3 (Z.to_nat l) (fun x y z => rsolid l m (x, y, z)).
Proof.
  assert (G : forall m, (0 <= m <= l)%Z -> pol3 (Z.to_nat l) (fun x y z => rsolid l m (x, y, z))).
  { intros k Hk. unfold rsolid. apply p_scal. destruct (half_range l k Hk) as [Hr Hr']. eapply p_ext; [intros x y z; symmetry; apply solid_mono; exact Hk|].
    apply pol3_zsum. intros i Hi. apply pol3_zsum. intros p Hp. apply pol3_zsum. intros j Hj. apply p_scal. eapply pol3_le; [|apply pol3_mono; lia]. lia. }
  intros Hm. destruct (Z_le_dec 0 m) as [P|P]; [apply G; lia|].
  eapply p_ext; [|apply (p_scal _ (sgnC m)); apply pol3_conj; apply (G (- m)%Z); lia]. intros x y z. cbn beta. assert (Q := VInt.rsolid_symm l (- m) x y z). rewrite Z.opp_involutive, sgnC_opp in Q. now rewrite Q.
Qed.

(* ---- arrays that integrate polynomials exactly ---- *)
Definition exact_to (N : nat) (pts : list pt) (D : body) : Prop := forall f, pol3 N f -> exists I, D f I /\ point_masses pts f I.
Lemma mono_000 x y z : mono 0 0 0 x y z = 1.
Proof. unfold mono. rewrite dp_RtoC by lia. rewrite !pw_0, zfact_0, <- RtoC_mult. apply C_eq; cbn; field. Qed.
Lemma pow_mono a b c x y z : RtoC (x ^ a * y ^ b * z ^ c)%R = RtoC (zfact (Z.of_nat c)) * mono (Z.of_nat a) (Z.of_nat b) (Z.of_nat c) x y z.
Proof. unfold mono. rewrite dp_RtoC, !pw_nonneg, !Nat2Z.id, <- !RtoC_mult by lia. f_equal. assert (H := zfact_neq0 (Z.of_nat c)). field. exact H. Qed.
Lemma brick_exact gl N mass x y z dx dy dz pts : (0 < x)%R -> (0 < y)%R -> (0 < z)%R -> (N < 2 * dx)%nat -> (N < 2 * dy)%nat -> (N < 2 * dz)%nat ->
  rules_at gl (dx :: dy :: dz :: nil) -> gl_rectangle gl mass x y z dx dy dz = Ok pts -> exact_to N pts (of_mass mass (box z x y)).
Proof.
  intros Hx Hy Hz Dx Dy Dz G E. rewrite gl_rect_eq in E by lia. injection E as <-. set (pts := gl_grid _ _ _ _ _ _ _).
  assert (RB := regular_box z x y). assert (RD := regular_of_mass mass _ RB). assert (RC := regular_points pts).
  assert (EV : box z x y (fun _ _ _ => RtoC 1) (RtoC (z * x * y))).
  { rewrite <- box_volume. eapply (reg_ext _ RB); [|apply (box_mono z x y 0 0 0); lia]. intros u v w. apply mono_000. }
  assert (NV : (z * x * y <> 0)%R) by (apply Rgt_not_eq; repeat apply Rmult_lt_0_compat; assumption).
  intros f Hf. refine (pol3_spanned (fun f => exists I, of_mass mass (box z x y) f I /\ point_masses pts f I) N _ _ _ _ f Hf); clear f Hf.
  - intros f g Efg (I & I1 & I2). exists I. split; [now apply (reg_ext _ RD f)|now apply (reg_ext _ RC f)].
  - intros c f (I & I1 & I2). exists (c * I). split; [now apply (reg_scal _ RD)|now apply (reg_scal _ RC)].
  - intros f g (I & I1 & I2) (J & J1 & J2). exists (I + J). split; [now apply (reg_plus _ RD)|now apply (reg_plus _ RC)].
  - intros a b c L. set (a' := Z.of_nat a). set (b' := Z.of_nat b). set (c' := Z.of_nat c).
    exists (RtoC (zfact c') * RtoC (mass / (z * x * y) * mu_box z x y a' b' c')). split.
    + eapply (reg_ext _ RD); [intros u v w; symmetry; apply pow_mono|]. apply (reg_scal _ RD). rewrite RtoC_mult. exists (z * x * y)%R, (RtoC (mu_box z x y a' b' c')).
      split; [exact NV|]. split; [exact EV|]. split; [apply box_mono; lia|reflexivity].
    + eapply (reg_ext _ RC); [intros u v w; symmetry; apply pow_mono|]. apply (reg_scal _ RC). apply (cloud_box gl mass x y z dx dy dz (a' + b' + c')); unfold below; try assumption; lia.
Qed.
Lemma moved_exact N pts D (g : vec -> vec) : (forall n f, pol3 n f -> pol3 n (fun x y z => let '(x', y', z') := g (x, y, z) in f x' y' z')) -> exact_to N pts D ->
  exact_to N (Refine3.moved g pts) (RefineSpec.carried g D).
Proof.
  intros P H f Hf. destruct (H _ (P N f Hf)) as (I & I1 & I2). exists I. split; [exact I1|]. unfold point_masses in *. rewrite I2. unfold Refine3.moved. clear.
  induction pts as [|p pts IH]; [reflexivity|]. cbn [map lsum pm pp]. rewrite <- IH. destruct (pp p) as [[x y] z]. reflexivity.
Qed.
Lemma pol3_moved (g : vec -> vec) : affine (fun v => fst (fst (g v))) -> affine (fun v => snd (fst (g v))) -> affine (fun v => snd (g v)) ->
  forall n f, pol3 n f -> pol3 n (fun x y z => let '(x', y', z') := g (x, y, z) in f x' y' z').
Proof. intros HU HV HW n f Hf. eapply p_ext; [|exact (pol3_subst n f _ _ _ HU HV HW Hf)]. intros x y z. cbn beta. now destruct (g (x, y, z)) as [[x' y'] z']. Qed.
Lemma linear_affine (g : vec -> vec) (pr : vec -> R) : (forall a b, g (vadd a b) = vadd (g a) (g b)) -> (forall c a, g (vscal c a) = vscal c (g a)) ->
  (forall a b, pr (vadd a b) = pr a + pr b)%R -> (forall c a, pr (vscal c a) = c * pr a)%R -> affine (fun v => pr (g v)).
Proof.
  intros A S PA PS. exists 0%R, (pr (g (1, 0, 0)%R)), (pr (g (0, 1, 0)%R)), (pr (g (0, 0, 1)%R)). intros x y z.
  replace (x, y, z)%R with (vadd (vadd (vscal x (1, 0, 0)) (vscal y (0, 1, 0))) (vscal z (0, 0, 1)))%R by (unfold vadd, vscal; cbn; f_equal; [f_equal|]; ring). rewrite !A, !S, !PA, !PS. ring.
Qed.
Lemma ruled_exact gl N pts D r M : ruled gl N pts D r M -> exact_to N pts D.
Proof.
  induction 1 as [mass x y z dx dy dz pts r Hx Hy Hz Dx Dy Dz G Hr Hn E|P r Hr HP|pts D r M t q H IH E|pts D r M axis theta rot q H IH Hax HR E|p1 D1 M1 p2 D2 M2 r H1 IH1 H2 IH2|pts D r M r' Hle H IH].
  - now apply (brick_exact gl N mass x y z dx dy dz).
  - intros f _. eexists. split; reflexivity.
  - cbn in E. injection E as <-. apply (moved_exact N pts D (fun v => vadd v t)); [|exact IH]. destruct t as [[a b] c]. refine (pol3_moved (fun v => vadd v (a, b, c)) _ _ _); unfold affine, vadd; cbn.
    + exists a, 1%R, 0%R, 0%R. intros; cbn; ring. + exists b, 0%R, 1%R, 0%R. intros; cbn; ring. + exists c, 0%R, 0%R, 1%R. intros; cbn; ring.
  - assert (EM := is_rotation_unique axis theta rot (axis_rot axis theta) Hax HR (axis_rot_is_rotation axis theta Hax)). rewrite rotate_array_spec in E by exact Hax. injection E as <-.
    replace (map (fun p => mkpt (pm p) (axis_rot axis theta (pp p))) pts) with (Refine3.moved rot pts) by (unfold Refine3.moved; apply map_ext; intros p; now rewrite EM).
    apply moved_exact; [|exact IH]. assert (A := rot_add _ _ _ HR). assert (S := rot_scal _ _ _ HR).
    refine (pol3_moved rot _ _ _); [apply (linear_affine rot (fun v => fst (fst v)) A S)|apply (linear_affine rot (fun v => snd (fst v)) A S)|apply (linear_affine rot (fun v => snd v) A S)]; first [intros [[? ?] ?] [[? ?] ?]; unfold vadd; cbn; ring|intros ? [[? ?] ?]; unfold vscal; cbn; ring].
  - intros f Hf. destruct (IH1 f Hf) as (I & I1 & I2), (IH2 f Hf) as (J & J1 & J2). exists (I + J). split; [exists I, J; now repeat split|]. unfold point_masses in *. rewrite I2, J2. clear. induction p1 as [|p l IH]; [cbn; ring|]. cbn [lsum app]. rewrite <- IH. ring.
  - exact IH.
Qed.
