(* Towards C80: a gridded distribution weighs at most M: with that constant the bounds of C73 become explicit. *)
From Coq Require Import Reals Lra Lia List ZArith.
From Coquelicot Require Import Coquelicot.
From Verif Require Import Glib GlibSpec GlibProofs GlibProofs2 NewtonSpec Newton MomentSpec Pg2MultiProofs Addition Irreg2 SolidSpec ShapeSpec BodySpec BodyInt BodyPair FloatSpec Props_Float GlibShapes PointSpec Props_GlibShapes RefineSpec Refine6 FineSpec Fine2 Fine4 Fine5.
From Verif Require Import QlmProofs QlmProofs3 Qlm Props_Qlm.
From Verif Require Import Cplx.
Open Scope R_scope.

(* an integral over D of a function of size at most e in the ball is at most M e *)
Definition weighs (D : body) (r M : R) : Prop := 0 <= M /\ forall f I e, 0 <= e -> D f I -> (forall x y z, vnorm (x, y, z) <= r -> Cmod (f x y z) <= e) -> Cmod I <= M * e.
Lemma CInt_norm f a b v M : a <= b -> 0 <= M -> is_CInt f a b v -> (forall t, a <= t <= b -> Cmod (f t) <= M) -> Cmod v <= (b - a) * M.
Proof.
  intros Hab HM [H1 H2] Hf. apply phase_found; [apply Rmult_le_pos; lra|]. intros al be T.
  assert (H : is_RInt (fun t => phase al be (f t)) a b (phase al be v)).
  { unfold phase. apply (is_RInt_plus (V := R_NormedModule)); apply (is_RInt_scal (V := R_NormedModule)); assumption. }
  apply (norm_RInt_le_const (V := R_NormedModule) (fun t => phase al be (f t)) a b (phase al be v) M Hab); [|exact H].
  intros t Ht. apply Rle_trans with (1 := phase_le al be (f t) T). now apply Hf.
Qed.
Lemma weighs_box mass x y z r : 0 < x -> 0 < y -> 0 < z -> (x / 2) ^ 2 + (y / 2) ^ 2 + (z / 2) ^ 2 <= r ^ 2 -> 0 <= r -> weighs (of_mass mass (box z x y)) r (Rabs mass).
Proof.
  intros Hx Hy Hz Hn Hr. split; [apply Rabs_pos|]. intros f I e He (V & J & HV & H1 & HJ & ->) Hf.
  assert (B : forall (g : R -> R -> R -> C) K, 0 <= e -> box z x y g K -> (forall a b c, - x / 2 <= a <= x / 2 -> - y / 2 <= b <= y / 2 -> - z / 2 <= c <= z / 2 -> Cmod (g a b c) <= e) -> Cmod K <= x * y * z * e).
  { clear - Hx Hy Hz. intros g K He (g1 & h1 & A1 & A2 & A3) Hg. assert (P1 : 0 <= z * e) by (apply Rmult_le_pos; lra). assert (P2 : 0 <= y * (z * e)) by (apply Rmult_le_pos; lra).
    replace (x * y * z * e) with ((x / 2 - - x / 2) * (y * (z * e))) by field. apply (CInt_norm h1); [lra|exact P2|exact A3|]. intros a Ha.
    replace (y * (z * e)) with ((y / 2 - - y / 2) * (z * e)) by field. apply (CInt_norm (g1 a)); [lra|exact P1|exact (A2 a)|]. intros b Hb.
    replace (z * e) with ((z / 2 - - z / 2) * e) by field. apply (CInt_norm (g a b)); [lra|exact He|exact (A1 a b)|]. intros c Hc. now apply Hg. }
  assert (E : V = x * y * z).
  { assert (U : box z x y (fun _ _ _ => RtoC 1) (RtoC (x * y * z))).
    { assert (Cst : forall k a b, is_CInt (fun _ : R => RtoC k) a b (RtoC ((b - a) * k))).
      { intros k a b. split; cbn [RtoC Re Im fst snd].
        - apply (is_RInt_const (V := R_NormedModule)).
        - refine (eq_rect _ (fun J : R => is_RInt (fun _ : R => 0) a b J) (is_RInt_const (V := R_NormedModule) a b (0 : R)) 0 _). change ((b - a) * 0 = 0). ring. }
      exists (fun _ _ => RtoC (z * 1)), (fun _ => RtoC (y * (z * 1))). split; [|split].
      - intros u v. replace (z * 1) with ((z / 2 - - z / 2) * 1) by field. apply Cst.
      - intros u. replace (y * (z * 1)) with ((y / 2 - - y / 2) * (z * 1)) by field. apply Cst.
      - replace (x * y * z) with ((x / 2 - - x / 2) * (y * (z * 1))) by field. apply Cst. }
    apply RtoC_inj. exact (reg_unique _ (regular_box z x y) _ _ _ H1 U). }
  rewrite Cmod_mult, Cmod_R. assert (PV : 0 < x * y * z) by (repeat apply Rmult_lt_0_compat; lra).
  assert (Q : Cmod J <= x * y * z * e).
  { apply (B f J He HJ). intros a b c Ha Hb Hc. apply Hf. rewrite vnorm_xyz. rewrite <- (sqrt_pow2 r Hr). apply sqrt_le_1_alt. nra. }
  rewrite E. unfold Rdiv. rewrite Rabs_mult, Rabs_inv, (Rabs_pos_eq (x * y * z)) by lra. rewrite Rmult_assoc. apply Rmult_le_compat_l; [apply Rabs_pos|].
  apply (Rmult_le_reg_l (x * y * z)); [exact PV|]. rewrite <- Rmult_assoc, Rinv_r, Rmult_1_l by lra. exact Q.
Qed.
Lemma gridded_weighs pts D r M d : gridded pts D r M d -> weighs D r M.
Proof.
  induction 1 as [mass x y z nx nz pts r Hx Hy Hz N1 N3 Hr Hn E|P r Hr HP|pts D r M d t q H IH E|pts D r M d axis theta rot q H IH Hax HR E|p1 D1 M1 d1 p2 D2 M2 d2 r H1 IH1 H2 IH2|pts D r M d r' Hle H IH].
  - now apply weighs_box.
  - split; [apply lsr_ge0; intros; apply Rabs_pos|]. intros f I e He -> Hf. unfold lsr. induction P as [|p P IH]; cbn [lsum fold_right]; [rewrite Cmod_0; lra|].
    eapply Rle_trans; [apply Cmod_triangle|]. rewrite Rmult_plus_distr_r. apply Rplus_le_compat; [|apply IH; intros; apply HP; now right].
    rewrite Cmod_mult, Cmod_R. apply Rmult_le_compat_l; [apply Rabs_pos|]. assert (G := HP p ltac:(now left)). destruct (pp p) as [[a b] c]. now apply Hf.
  - destruct IH as (HM & IH). split; [exact HM|]. intros f I e He HI Hf. apply (IH _ I e He HI). intros x y z Hv. assert (Q := vnorm_triangle (x, y, z) t). destruct (vadd (x, y, z) t) as [[a b] c]. apply Hf. lra.
  - destruct IH as (HM & IH). split; [exact HM|]. intros f I e He HI Hf. apply (IH _ I e He HI). intros x y z Hv. assert (Q := rot_vnorm axis theta rot (x, y, z) HR). destruct (rot (x, y, z)) as [[a b] c]. apply Hf. lra.
  - destruct IH1 as (K1 & A1), IH2 as (K2 & A2). split; [lra|]. intros f I e He (I1 & I2 & HI1 & HI2 & ->) Hf. eapply Rle_trans; [apply Cmod_triangle|]. rewrite Rmult_plus_distr_r. apply Rplus_le_compat; [now apply (A1 f)|now apply (A2 f)].
  - destruct IH as (HM & IH). split; [exact HM|]. intros f I e He HI Hf. apply (IH f I e He HI). intros x y z Hv. apply Hf. lra.
Qed.
Lemma weighs_pair B1 B2 r1 r2 M1 M2 : regular B1 -> regular B2 -> weighs B1 r1 M1 -> weighs B2 r2 M2 ->
  forall k J (E : vec -> vec -> C) I e, 0 <= e -> pair_integral B1 r1 B2 r2 k J -> pairC B1 B2 E I ->
  (forall v w, vnorm v <= r1 -> vnorm w <= r2 -> Cmod (E v w - RtoC (k v w))%C <= e) -> Cmod (I - RtoC J)%C <= M1 * M2 * e.
Proof.
  intros R1 R2 (HK1 & C1) (HK2 & C2) k J E I e He (f & g & Hf & Hg & HJ) (gE & HgE & HI) H. rewrite Rmult_assoc.
  apply (C1 (fun x y z => gE (x, y, z) - RtoC (g (x, y, z)))%C); [now apply Rmult_le_pos|now apply minusC|]. intros x y z Hv.
  apply (C2 (fun a b c => E (x, y, z) (a, b, c) - RtoC (f (x, y, z) (a, b, c)))%C); [exact He|now apply minusC|]. intros a b c Hw. rewrite Hf by assumption. now apply H.
Qed.
(* the integrals over a moved distribution *)
Lemma pair_integral_carried M D1 r1 r1' D2 r2 k I : regular D1 -> (forall v, vnorm v <= r1 -> vnorm (M v) <= r1') ->
  pair_integral (fun f J => D1 (fun x y z => let '(x', y', z') := M (x, y, z) in f x' y' z') J) r1' D2 r2 k I -> pair_integral D1 r1 D2 r2 (fun v w => k (M v) w) I.
Proof.
  intros RD HM (f & g & Hf & Hg & HI). exists (fun v w => f (M v) w), (fun v => g (M v)). split; [|split].
  - intros v w Hv Hw. apply Hf; [now apply HM|exact Hw].
  - intros v. apply Hg.
  - refine (reg_ext D1 RD _ _ _ _ HI). intros x y z. cbv beta. now destruct (M (x, y, z)) as [[a b] c].
Qed.
Lemma pair_integral_ext D1 r1 D2 r2 k k' I : (forall v w, vnorm v <= r1 -> vnorm w <= r2 -> k v w = k' v w) -> pair_integral D1 r1 D2 r2 k I -> pair_integral D1 r1 D2 r2 k' I.
Proof. intros E (f & g & Hf & Hg & HI). exists f, g. split; [|split]; try assumption. intros v w Hv Hw. rewrite Hf by assumption. now apply E. Qed.
