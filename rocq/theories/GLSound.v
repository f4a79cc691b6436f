(* Every distribution of gl_digitised: the arrays exist and tend to it. *)
From Coq Require Import Reals Lra Lia List ZArith Classical.
From Coquelicot Require Import Coquelicot.
From Verif Require Import Glib GlibSpec GlibProofs GlibProofs2 LipInt BodyInt SolidSpec VInt NumSpec PointSpec ShapeSpec ShapesProofs GlibShapes GlibShapesProofs Props_GlibShapes Props_GlibShapes2 QlmProofs QlmProofs3 NumExist Pg2MultiProofs Props_Shapes2 Irreg2 Refine2 Refine3 Refine4 Refine5 RefineSpec Refine7 Refine10 Refine6 GLSpec GShapeGL GLRefineSpec.
From Verif Require Import Cplx.
From Verif Require Import Refine GLShapes GLSolid GLPrism.
Import ListNotations.
Open Scope R_scope.

Theorem gl_digitised_sound fam D r : gl_digitised fam D r -> sound_family fam D r.
Proof.
  induction 1 as [mass x y z r Hm Hx Hy Hz Hr Hn|mass Rad r Hm Hr|mass iR oR t r HR Ht Hr Hn|mass iR oR t theta r HR Ht Hth Hr Hn|mass Rad h r HR Hh Hr Hn|mass d y1 y2 t r Hm Hd Hy Ht Hr Hn|fam D r H|fam D r t H IH|fam D r axis theta M H IH Hax HM|fam1 D1 fam2 D2 r H1 IH1 H2 IH2|fam D r r' Hle H IH].
  - split; [apply regular_of_mass, regular_box|]. split; [exact Hr|]. now apply gl_rectangle_tends.
  - split; [apply regular_of_mass, regular_plain|]. split; [lra|]. now apply gl_sphere_tends.
  - split; [apply regular_of_mass, regular_annular|]. split; [exact Hr|]. now apply gl_annulus_tends.
  - split; [apply regular_of_mass, regular_annular|]. split; [exact Hr|]. now apply gl_wedge_tends.
  - split; [apply regular_of_mass, (regular_int3 _ _ _ _ _ _ (fun f p z q => RtoC q * f (q * cos p)%R (q * sin p)%R z)%C); intros; [now rewrite H|ring|ring|rewrite Cconj_mult, Cconj_RtoC; ring]|]. split; [exact Hr|]. now apply gl_cone_tends.
  - split; [apply regular_of_mass, regular_plain|]. split; [exact Hr|]. now apply gl_prism_tends.
  - now apply digitised_sound.
  - destruct IH as (RD & Hr & T & EX). split; [now apply regular_shifted|]. split; [assert (0 <= vnorm t) by (destruct t as [[? ?] ?]; rewrite vnorm_xyz; apply sqrt_pos); lra|]. split.
    + apply (tends_fam (fun n q => exists pts, fam n pts /\ q = Refine3.moved (fun v => vadd v t) pts)).
      * intros n q (pts & HF & E). exists pts. split; [exact HF|]. cbn in E. injection E as <-. reflexivity.
      * apply (tends_mapped fam D r); [exact RD|exact T|apply LL_vadd|]. intros v Hv. assert (K := vnorm_triangle v t). lra.
    + intros n. destruct (EX n) as (pts & HF). eexists. exists pts. split; [exact HF|]. cbn. reflexivity.
  - destruct IH as (RD & Hr & T & EX). assert (EM := is_rotation_unique axis theta M (axis_rot axis theta) Hax HM (axis_rot_is_rotation axis theta Hax)).
    split; [now apply (regular_mapped M)|]. split; [exact Hr|]. split.
    + apply (tends_fam (fun n q => exists pts, fam n pts /\ q = Refine3.moved M pts)).
      * intros n q (pts & HF & E). exists pts. split; [exact HF|]. rewrite rotate_array_spec in E by exact Hax. injection E as <-. unfold Refine3.moved. apply map_ext. intros p. now rewrite EM.
      * apply (tends_mapped fam D r); [exact RD|exact T| |].
        { refine (LL_ext V3 V3 _ _ _ (LL_mvec (rodrigues (vscal (/ sqrt (vdot axis axis)) axis) theta))). intros v. now rewrite EM. }
        { intros v Hv. now rewrite (rot_vnorm axis theta M v HM). }
    + intros n. destruct (EX n) as (pts & HF). eexists. exists pts. split; [exact HF|]. rewrite rotate_array_spec by exact Hax. reflexivity.
  - destruct IH1 as (RD1 & Hr & T1 & EX1). destruct IH2 as (RD2 & _ & T2 & EX2). split; [now apply regular_together|]. split; [exact Hr|]. split; [now apply tends_joined|].
    intros n. destruct (EX1 n) as (p1 & F1). destruct (EX2 n) as (p2 & F2). exists (p1 ++ p2), p1, p2. now repeat split.
  - destruct IH as (RD & Hr & T & EX). split; [exact RD|]. split; [lra|]. split; [now apply (tends_weaken fam D r r')|exact EX].
Qed.
