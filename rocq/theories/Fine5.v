(* Towards C78: the moments. *)
From Coq Require Import Reals Lra Lia List ZArith.
From Coquelicot Require Import Coquelicot.
From Verif Require Import Glib GlibSpec GlibProofs GlibProofs2 NewtonSpec Newton MomentSpec Pg2Multi Pg2MultiProofs Props_Moments Translations Addition Irreg2 SolidSpec ShapeSpec QlmProofs QlmProofs3 Qlm Props_Qlm Props_Shapes2 BodyInt BodySpec BuiltSpec Props_Body GlibShapes PointSpec Props_GlibShapes Refine3 Refine6 RefineSpec FineSpec Fine2 Fine3 Fine4.
From Verif Require Import Cplx.
From Verif Require Import Refine.
Import ListNotations.
Open Scope R_scope.

Lemma box_nice mass x y z r : 0 < x -> 0 < y -> 0 < z -> 0 <= r -> (x / 2) ^ 2 + (y / 2) ^ 2 + (z / 2) ^ 2 <= r ^ 2 -> confined (of_mass mass (box z x y)) r.
Proof.
  intros Hx Hy Hz Hr Hn. destruct (C36_rect_prism 0 1 z x y 0 ltac:(lia) Hz Hx Hy) as (q & _ & _ & V & HV & BV & _).
  assert (BV' : box z x y (fun _ _ _ => RtoC 1) (RtoC V)). { refine (reg_ext _ (regular_box z x y) _ _ _ _ BV). reflexivity. }
  assert (N := nice_built _ _ (b_of_mass mass V (box z x y) r HV BV' (b_box z x y r Hr Hn))). apply N.
Qed.
Lemma gridded_confined pts D r M d : gridded pts D r M d -> confined D r.
Proof.
  induction 1 as [mass x y z nx nz pts r Hx Hy Hz N1 N3 Hr Hn E|P r Hr HP|pts D r M d t q H IH E|pts D r M d axis theta rot q H IH Hax HR E|p1 D1 M1 d1 p2 D2 M2 d2 r H1 IH1 H2 IH2|pts D r M d r' Hle H IH].
  - now apply box_nice.
  - apply (nice_built _ _ (b_points P r Hr HP)).
  - apply (confined_mapped (fun v => vadd v t) D r); [|exact IH]. intros v Hv. assert (Q := vnorm_triangle v t). lra.
  - apply (confined_mapped rot D r); [|exact IH]. intros v Hv. now rewrite (rot_vnorm axis theta rot v HR).
  - destruct IH1 as (K & HK & A2), IH2 as (K' & HK' & B2). exists (K + K'). split; [lra|]. intros f I e He (I1 & I2 & HI1 & HI2 & ->) Hf. eapply Rle_trans; [apply Cmod_triangle|]. rewrite Rmult_plus_distr_r. apply Rplus_le_compat; [now apply (A2 f)|now apply (B2 f)].
  - destruct IH as (K & HK & A). exists K. split; [exact HK|]. intros f I e He HI Hf. apply (A f I e He HI). intros x y z Hv. apply Hf. lra.
Qed.
Lemma phase_plus al be z w : phase al be (z + w)%C = phase al be z + phase al be w.
Proof. destruct z, w. unfold phase, Re, Im, Cplus. cbn. ring. Qed.
Lemma phase_real al be c z : phase al be (RtoC c * z)%C = c * phase al be z.
Proof. destruct z. unfold phase, Re, Im, RtoC, Cmult. cbn. ring. Qed.
Lemma phase_moment al be l m pts : phase al be (inner_moment pts l m) = weighed (fun v => phase al be (rsolid l m v)) pts.
Proof.
  unfold weighed, inner_moment. induction pts as [|p pts IH]; [unfold phase; cbn; ring|]. cbn [lsum]. unfold lsr in *. cbn [fold_right]. rewrite phase_plus, phase_real. apply f_equal2; [reflexivity|exact IH].
Qed.
Lemma phase_body D al be (g : vec -> C) I : regular D -> D (fun x y z => g (x, y, z)) I -> D (fun x y z => RtoC (phase al be (g (x, y, z)))) (RtoC (phase al be I)).
Proof.
  intros RD H. assert (H' := reg_conj D RD _ _ H). apply (reg_scal D RD (RtoC (al / 2) - Ci * RtoC (be / 2))%C) in H. apply (reg_scal D RD (RtoC (al / 2) + Ci * RtoC (be / 2))%C) in H'.
  assert (P := reg_plus D RD _ _ _ _ H H').
  assert (E : forall z : C, ((RtoC (al / 2) - Ci * RtoC (be / 2)) * z + (RtoC (al / 2) + Ci * RtoC (be / 2)) * Cconj z)%C = RtoC (phase al be z)).
  { intros [a b]. unfold phase, Re, Im, Ci, RtoC, Cmult, Cplus, Cminus, Copp, Cconj. cbn. apply injective_projections; cbn; field. }
  rewrite E in P. refine (reg_ext D RD _ _ _ _ P). intros x y z. apply E.
Qed.
Lemma body_agree D r f g I J : regular D -> confined D r -> (forall x y z, vnorm (x, y, z) <= r -> f x y z = g x y z) -> D f I -> D g J -> I = J.
Proof.
  intros RD (K & HK & Q) E HI HJ. apply (reg_scal D RD (RtoC (-1))) in HJ. assert (P := reg_plus D RD _ _ _ _ HI HJ).
  assert (NEG : RtoC (-1) = Copp (RtoC 1)) by (apply injective_projections; cbn; ring). rewrite NEG in P.
  assert (B : Cmod (I + - RtoC 1 * J)%C <= K * 0). { apply (Q _ _ 0 ltac:(lra) P). intros x y z Hv. cbv beta. rewrite (E x y z Hv). replace (g x y z + - RtoC 1 * g x y z)%C with (RtoC 0) by ring. rewrite Cmod_0. lra. }
  rewrite Rmult_0_r in B. assert (Z0 : (I + - RtoC 1 * J)%C = RtoC 0) by (apply Cmod_eq_0; assert (A := Cmod_ge_0 (I + - RtoC 1 * J)%C); lra).
  replace I with ((I + - RtoC 1 * J) + J)%C by ring. rewrite Z0. ring.
Qed.
Lemma moment_close pts D r M d l m I : gridded pts D r M d -> 0 < r -> (0 <= l)%Z -> (Z.abs m <= l)%Z -> D (fun x y z => rsolid l m (x, y, z)) I ->
  Cmod (inner_moment pts l m - I)%C <= steep l r * d.
Proof.
  intros H Hr Hl Hm HI. assert (CF := gridded_confined _ _ _ _ _ H). destruct (gridded_sound _ _ _ _ _ H) as (RD & _ & _ & Hd & _ & HP & J & J1 & _). assert (S0 := steep_pos l r Hl ltac:(lra)).
  apply phase_found; [now apply Rmult_le_pos|]. intros al be T. assert (L := solid_lip l m r al be T Hl Hm Hr). destruct (J1 _ _ S0 L) as (A & B).
  assert (E : RtoC (J (fun v => phase al be (rsolid l m (into r v)))) = RtoC (phase al be I)).
  { refine (body_agree D r _ _ _ _ RD CF _ A (phase_body D al be (fun v => rsolid l m v) I RD HI)). intros x y z Hv. cbv beta. now rewrite into_in. }
  apply RtoC_inj in E. rewrite E in B. replace (phase al be (inner_moment pts l m - I)%C) with (weighed (fun v => phase al be (rsolid l m (into r v))) pts - phase al be I); [exact B|].
  replace (phase al be (inner_moment pts l m - I)%C) with (phase al be (inner_moment pts l m) - phase al be I) by (destruct (inner_moment pts l m), I; unfold phase, Re, Im, Cminus, Cplus, Copp; cbn; ring).
  rewrite phase_moment. f_equal. unfold weighed. apply lsr_ext. intros p Hp. rewrite into_in; [reflexivity|exact Hr|now apply HP].
Qed.
