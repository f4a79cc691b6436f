(* Every digitised distribution: the arrays exist and tend to it. *)
From Coq Require Import Reals Lra Lia List ZArith Classical.
From Coquelicot Require Import Coquelicot.
From Verif Require Import Glib GlibSpec GlibProofs GlibProofs2 LipInt BodyInt SolidSpec VInt NumSpec PointSpec ShapeSpec ShapesProofs GlibShapes GlibShapesProofs Props_GlibShapes Props_GlibShapes2 QlmProofs QlmProofs3 NumExist Pg2MultiProofs Props_Shapes2 Props_GlibShapes Irreg2 Refine2 Refine3 Refine4 Refine5 RefineSpec Refine7 Refine10.
From Verif Require Import Cplx.
From Verif Require Import Refine.
Import ListNotations.
Open Scope R_scope.

Lemma tends_fam (fam fam' : nat -> list pt -> Prop) D r : (forall n q, fam' n q -> fam n q) -> tends fam D r -> tends fam' D r.
Proof.
  intros H ((M & HM & B) & C & T). split; [|split].
  - exists M. split; [exact HM|]. intros n pts HF. exact (B n pts (H _ _ HF)).
  - intros n pts p HF. exact (C n pts p (H _ _ HF)).
  - intros X F UF. destruct (T X F UF) as (G & UG & DG & L). exists G. split; [exact UG|]. split; [exact DG|]. intros A eps He. destruct (L A eps He) as (N & Q). exists N. intros n pts x Hn HF. exact (Q n pts x Hn (H _ _ HF)).
Qed.
Lemma tends_ext fam (D D' : body) r : (forall f I, D f I -> D' f I) -> tends fam D r -> tends fam D' r.
Proof. intros H (A & B & T). split; [exact A|]. split; [exact B|]. intros X F UF. destruct (T X F UF) as (G & UG & DG & L). exists G. split; [exact UG|]. split; [|exact L]. intros x. apply H, DG. Qed.
Lemma filling_ok mass S bx (fam : nat -> list pt -> Prop) : (forall n pts, fam n pts -> exists nx ny nz, (n < nx)%nat /\ (n < ny)%nat /\ (n < nz)%nat /\ fills mass S bx nx ny nz pts) -> filling mass S bx fam.
Proof. intros H n pts Hp. destruct (H n pts Hp) as (nx & ny & nz & ? & ? & ? & HF). exists nx, ny, nz. repeat (split; [lia|]). exact HF. Qed.
Lemma LL_mvec M : LL V3 V3 (mvec M).
Proof. destruct M as [[[[a11 a12] a13] [[a21 a22] a23]] [[a31 a32] a33]]. refine (LL_ext V3 V3 (fun v : vec => (a11 * fst (fst v) + a12 * snd (fst v) + a13 * snd v, a21 * fst (fst v) + a22 * snd (fst v) + a23 * snd v, a31 * fst (fst v) + a32 * snd (fst v) + a33 * snd v)) _ _ _). - intros [[x y] z]. reflexivity. - ll. Qed.
Lemma rot_vnorm n theta f v : is_rotation n theta f -> vnorm (f v) = vnorm v.
Proof. intros H. assert (E := rot_dot _ _ _ H v v). revert E. destruct (f v) as [[a b] c], v as [[x y] z]. rewrite !vnorm_xyz. unfold vdot. intros E. f_equal. lra. Qed.

Definition sound_family (fam : nat -> list pt -> Prop) (D : body) (r : R) : Prop := regular D /\ 0 <= r /\ tends fam D r /\ forall n, exists pts, fam n pts.
Theorem digitised_sound fam D r : digitised fam D r -> sound_family fam D r.
Proof.
  induction 1 as [mass x y z r Hx Hy Hz Hr Hn|mass d y1 y2 t r Hm Hd Hy Ht Hr Hn|mass x y1 y2 z r Hm Hx Hy Hz Hn|mass x y z r Hm Hx Hy Hz Hn|mass r1 r2 t beta r Hm H12 Ht Hb Hr Hn|mass a Rad r Hm Ha Hr Hn|mass t a theta r Hm Ht Ha Hth Hr Hn|mass r1 r2 t r Hm H12 Ht Hr Hn|mass r1 r2 t beta r Hm H12 Ht Hb Hr Hn|mass Rad h beta r Hm HR Hh Hb|mass r1 r2 h beta r Hm H12 Hh Hb Hr Hn|P r Hr Hp|fam D r t H IH|fam D r axis theta M H IH Hax HM|fam1 D1 fam2 D2 r H1 IH1 H2 IH2|fam D r r' Hle H IH].
  - split; [|split; [exact Hr|split]].
    + apply regular_of_mass, regular_box.
    + apply box_tends; try assumption. apply filling_ok. intros n pts (nx & nz & L1 & L2 & E). exists nx, nx, nz. do 3 (split; [assumption|]).
      destruct (C40_rectangle_equal_counts mass x y z nx nz Hx Hy Hz ltac:(lia) ltac:(lia)) as (pts' & E' & HF). rewrite E in E'. injection E' as <-. exact HF.
    + intros n. destruct (C40_rectangle_equal_counts mass x y z (n + 1) (n + 1) Hx Hy Hz ltac:(lia) ltac:(lia)) as (pts' & E' & HF). exists pts', (n + 1)%nat, (n + 1)%nat. repeat (split; [lia|]). exact E'.
  - destruct (tri_tends mass d y1 y2 t r Hd Hy Ht Hr Hn) as (T & N & EX). split; [|split; [exact Hr|split]].
    + apply regular_of_mass, regular_tri.
    + apply T. apply filling_ok. intros n pts (nx & ny & nz & L1 & L2 & L3 & E). exists nx, ny, nz. do 3 (split; [assumption|]).
      destruct (proj1 (C40_tri_prism mass d y1 y2 t nx ny nz Hd Hy Ht Hm ltac:(lia) ltac:(lia) ltac:(lia))) as [(pts' & E' & _ & HF)|(E' & _)]; rewrite E in E'; [|discriminate]. injection E' as <-. exact HF.
    + intros n. set (k := (n + N + 1)%nat). destruct (EX k k k ltac:(unfold k; lia) ltac:(unfold k; lia) ltac:(unfold k; lia)) as (v & V1 & V2).
      destruct (proj1 (C40_tri_prism mass d y1 y2 t k k k Hd Hy Ht Hm ltac:(unfold k; lia) ltac:(unfold k; lia) ltac:(unfold k; lia))) as [(pts' & E' & _ & HF)|(_ & NO)]; [|destruct (NO v V1 V2)].
      exists pts', k, k, k. unfold k in *. repeat (split; [lia|]). exact E'.
  - destruct (tetra_tends mass x y1 y2 z r Hx Hy Hz Hn) as (T & _). split; [|split; [lra|split]].
    + apply regular_of_mass, regular_apex.
    + apply T. apply filling_ok. intros n pts (nx & ny & nz & L1 & L2 & L3 & E). exists nx, ny, nz. do 3 (split; [assumption|]).
      destruct (proj1 (C40_tetrahedron mass x y1 y2 z nx ny nz Hx Hy (proj1 Hz) Hm ltac:(lia) ltac:(lia) ltac:(lia))) as (pts' & E' & HF); rewrite E in E'. injection E' as <-. exact HF.
    + intros n. destruct (proj1 (C40_tetrahedron mass x y1 y2 z (n + 1) (n + 1) (n + 1) Hx Hy (proj1 Hz) Hm ltac:(lia) ltac:(lia) ltac:(lia))) as (pts' & E' & HF). exists pts', (n + 1)%nat, (n + 1)%nat, (n + 1)%nat. repeat (split; [lia|]). exact E'.
  - destruct (pyramid_tends mass (x / 2) (y / 2) z r ltac:(lra) ltac:(lra) Hz Hn) as (T & _). split; [|split; [lra|split]].
    + apply regular_of_mass, regular_pyramid.
    + apply T. apply filling_ok. intros n pts (nx & ny & nz & L1 & L2 & L3 & E). exists nx, ny, nz. do 3 (split; [assumption|]).
      destruct (proj1 (C40_pyramid mass x y z nx ny nz Hx Hy (proj1 Hz) Hm ltac:(lia) ltac:(lia) ltac:(lia))) as (pts' & E' & HF); rewrite E in E'. injection E' as <-. exact HF.
    + intros n. destruct (proj1 (C40_pyramid mass x y z (n + 1) (n + 1) (n + 1) Hx Hy (proj1 Hz) Hm ltac:(lia) ltac:(lia) ltac:(lia))) as (pts' & E' & HF). exists pts', (n + 1)%nat, (n + 1)%nat, (n + 1)%nat. repeat (split; [lia|]). exact E'.
  - destruct (trapezoid_tends mass r1 r2 t beta r H12 Ht Hb Hr Hn) as (T & _). split; [|split; [exact Hr|split]].
    + apply regular_of_mass, regular_plain.
    + apply T. apply filling_ok. intros n pts (nx & nz & L1 & L2 & E). exists nx, nx, nz. do 3 (split; [assumption|]).
      destruct (proj1 (C40_trapezoid mass r1 r2 t beta nx nz H12 Ht Hb Hm ltac:(lia) ltac:(lia))) as (pts' & E' & HF); rewrite E in E'. injection E' as <-. exact HF.
    + intros n. destruct (proj1 (C40_trapezoid mass r1 r2 t beta (n + 1) (n + 1) H12 Ht Hb Hm ltac:(lia) ltac:(lia))) as (pts' & E' & HF). exists pts', (n + 1)%nat, (n + 1)%nat. repeat (split; [lia|]). exact E'.
  - destruct (crossed_tends mass a Rad r Ha Hr Hn) as (T & _). split; [|split; [exact Hr|split]].
    + apply regular_of_mass, regular_plain.
    + apply T. apply filling_ok. intros n pts (nx & nz & L1 & L2 & E). exists nx, nx, nz. do 3 (split; [assumption|]).
      destruct (proj1 (C40_cylhole mass a Rad nx nz ltac:(lra) ltac:(lra) Hm ltac:(lia) ltac:(lia))) as (pts' & E' & HF); rewrite E in E'. injection E' as <-. exact HF.
    + intros n. destruct (proj1 (C40_cylhole mass a Rad (n + 1) (n + 1) ltac:(lra) ltac:(lra) Hm ltac:(lia) ltac:(lia))) as (pts' & E' & HF). exists pts', (n + 1)%nat, (n + 1)%nat. repeat (split; [lia|]). exact E'.
  - destruct (sheared_tends mass t a theta r Ht Ha Hth Hr Hn) as (T & _). split; [|split; [exact Hr|split]].
    + apply regular_of_mass. apply (regular_int3 _ _ _ _ _ _ (fun f z y x => f x y z)); intros; auto.
    + apply T. apply filling_ok. intros n pts (nx & ny & nz & L1 & L2 & L3 & E). exists nx, ny, nz. do 3 (split; [assumption|]).
      destruct (proj1 (C40_platehole mass t a theta nx ny nz Ht Ha Hth Hm ltac:(lia) ltac:(lia) ltac:(lia))) as (pts' & E' & HF); rewrite E in E'. injection E' as <-. exact HF.
    + intros n. destruct (proj1 (C40_platehole mass t a theta (n + 1) (n + 1) (n + 1) Ht Ha Hth Hm ltac:(lia) ltac:(lia) ltac:(lia))) as (pts' & E' & HF). exists pts', (n + 1)%nat, (n + 1)%nat, (n + 1)%nat. repeat (split; [lia|]). exact E'.
  - destruct (annulus_tends mass r r1 r2 t H12 Ht Hr Hn) as (T & N & EX). split; [|split; [exact Hr|split]].
    + apply regular_of_mass, regular_annular.
    + apply T. apply filling_ok. intros n pts (nx & nz & L1 & L2 & E). exists nx, nx, nz. do 3 (split; [assumption|]).
      destruct (proj1 (C40_annulus mass r1 r2 t nx nz H12 Ht Hm ltac:(lia) ltac:(lia))) as [(pts' & E' & _ & HF)|(E' & _)]; rewrite E in E'; [|discriminate]. injection E' as <-. exact HF.
    + intros n. set (k := (n + N + 1)%nat). assert (NE := EX k k k ltac:(unfold k; lia) ltac:(unfold k; lia) ltac:(unfold k; lia) ltac:(unfold k; lia) ltac:(unfold k; lia) ltac:(unfold k; lia)).
      destruct (proj1 (C40_annulus mass r1 r2 t k k H12 Ht Hm ltac:(unfold k; lia) ltac:(unfold k; lia))) as [(pts' & E' & _ & HF)|(_ & NO)]; [|destruct (NE NO)].
      exists pts', k, k. unfold k in *. repeat (split; [lia|]). exact E'.
  - destruct (wedge_tends mass r r1 r2 t beta H12 Ht Hb Hr Hn) as (T & _). split; [|split; [exact Hr|split]].
    + apply regular_of_mass, regular_annular.
    + apply T. apply filling_ok. intros n pts (nx & nz & L1 & L2 & E). exists nx, nx, nz. do 3 (split; [assumption|]).
      destruct (proj1 (C40_wedge mass r1 r2 t beta nx nz H12 Ht Hb Hm ltac:(lia) ltac:(lia))) as (pts' & E' & HF); rewrite E in E'. injection E' as <-. exact HF.
    + intros n. destruct (proj1 (C40_wedge mass r1 r2 t beta (n + 1) (n + 1) H12 Ht Hb Hm ltac:(lia) ltac:(lia))) as (pts' & E' & HF). exists pts', (n + 1)%nat, (n + 1)%nat. repeat (split; [lia|]). exact E'.
  - destruct (cone_tends mass r Rad h beta HR Hh Hb) as (T & _). split; [|split; [lra|split]].
    + apply regular_of_mass, regular_cone.
    + apply T. apply filling_ok. intros n pts (nx & nz & L1 & L2 & E). exists nx, nx, nz. do 3 (split; [assumption|]).
      destruct (proj1 (C40_cone mass Rad h beta nx nz (proj1 HR) (proj1 Hh) Hb Hm ltac:(lia) ltac:(lia))) as (pts' & E' & HF); rewrite E in E'. injection E' as <-. exact HF.
    + intros n. destruct (proj1 (C40_cone mass Rad h beta (n + 1) (n + 1) (proj1 HR) (proj1 Hh) Hb Hm ltac:(lia) ltac:(lia))) as (pts' & E' & HF). exists pts', (n + 1)%nat, (n + 1)%nat. repeat (split; [lia|]). exact E'.
  - destruct (outer_cone_tends mass r r1 r2 h beta H12 Hh Hb Hr Hn) as (T & _). split; [|split; [exact Hr|split]].
    + apply regular_of_mass, (regular_int3 _ _ _ _ _ _ (fun f p z q => RtoC q * f (q * cos p)%R (q * sin p)%R z)%C); intros; [now rewrite H|ring|ring|rewrite Cconj_mult, Cconj_RtoC; ring].
    + apply T. apply filling_ok. intros n pts (nx & nz & L1 & L2 & E). exists nx, nx, nz. do 3 (split; [assumption|]).
      destruct (proj1 (C40_outer_cone mass r1 r2 h beta nx nz H12 Hh Hb Hm ltac:(lia) ltac:(lia))) as (pts' & E' & HF); rewrite E in E'. injection E' as <-. exact HF.
    + intros n. destruct (proj1 (C40_outer_cone mass r1 r2 h beta (n + 1) (n + 1) H12 Hh Hb Hm ltac:(lia) ltac:(lia))) as (pts' & E' & HF). exists pts', (n + 1)%nat, (n + 1)%nat. repeat (split; [lia|]). exact E'.
  - split; [apply regular_points|]. split; [exact Hr|]. split; [exact (tends_points P r Hp)|]. intros n. now exists P.
  - destruct IH as (RD & Hr & T & EX). split; [now apply regular_shifted|]. split; [assert (0 <= vnorm t) by (destruct t as [[? ?] ?]; rewrite vnorm_xyz; apply sqrt_pos); lra|]. split.
    + apply (tends_fam (fun n q => exists pts, fam n pts /\ q = Refine3.moved (fun v => vadd v t) pts)).
      * intros n q (pts & HF & E). exists pts. split; [exact HF|]. cbn in E. injection E as <-. reflexivity.
      * apply (tends_mapped fam D r); [exact RD|exact T|apply LL_vadd|]. intros v Hv. assert (K := vnorm_triangle v t). lra.
    + intros n. destruct (EX n) as (pts & HF). eexists. exists pts. split; [exact HF|]. cbn. reflexivity.
  - destruct IH as (RD & Hr & T & EX). assert (EM := is_rotation_unique axis theta M (axis_rot axis theta) Hax HM (axis_rot_is_rotation axis theta Hax)).
    split; [now apply (regular_mapped M)|]. split; [exact Hr|]. split.
    + apply (tends_fam (fun n q => exists pts, fam n pts /\ q = Refine3.moved M pts)).
      * intros n q (pts & HF & E). exists pts. split; [exact HF|]. rewrite rotate_array_spec in E by exact Hax. injection E as <-. unfold Refine3.moved. apply map_ext. intros p. now rewrite EM.
      * apply (tends_mapped fam D r); [exact RD|exact T| |].
        { refine (LL_ext V3 V3 _ _ _ (LL_mvec (rodrigues (vscal (/ sqrt (vdot axis axis)) axis) theta))). intros v. now rewrite EM. }
        { intros v Hv. now rewrite (rot_vnorm axis theta M v HM). }
    + intros n. destruct (EX n) as (pts & HF). eexists. exists pts. split; [exact HF|]. rewrite rotate_array_spec by exact Hax. reflexivity.
  - destruct IH1 as (RD1 & Hr & T1 & EX1). destruct IH2 as (RD2 & _ & T2 & EX2). split; [now apply regular_together|]. split; [exact Hr|]. split; [now apply tends_joined|].
    intros n. destruct (EX1 n) as (p1 & F1). destruct (EX2 n) as (p2 & F2). exists (p1 ++ p2), p1, p2. now repeat split.
  - destruct IH as (RD & Hr & T & EX). split; [exact RD|]. split; [lra|]. split; [now apply (tends_weaken fam D r r')|exact EX].
Qed.
