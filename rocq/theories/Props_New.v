(* C44: adding shapes to a newly created Shape (newt/shapes.py:26-32, 82-126) *)
From Coq Require Import Reals ZArith Lia Lra List Bool.
From Coquelicot Require Import Coquelicot.
From Verif Require Import Cplx Res Glib GlibSpec Arr Shapes ShapeSpec ShapesProofs Props_Shapes.
Import ListNotations.
Open Scope R_scope.

Definition a_mesh : mesh := mkmesh (fun _ => False) true.
Lemma without_mesh s l s' : s_mesh s = None -> shape_add (set_mesh s (Some a_mesh)) (ArgList (map Some l)) = (s', None) ->
  exists e, shape_add s (ArgList (map Some l)) = (set_mesh s' None, Some e) /\ e = AttributeError.
Proof.
  destruct s as [inn L q c ms me]. cbn. intros ->. exists AttributeError. split; [|reflexivity]. revert H.
  change (set_mesh (mkshape inn L q c ms None) (Some a_mesh)) with (mkshape inn L q c ms (Some a_mesh)).
  unfold shape_add. rewrite all_shapes_some. cbv zeta. cbn [forallb s_inner set_mesh s_lmax s_qlm s_com s_mass s_mesh].
  change (maxl (mkshape inn L q c ms (Some a_mesh) :: l)) with (maxl (mkshape inn L q c ms None :: l)).
  destruct (_ || _)%bool; [|discriminate].
  change (fold_left com_step (mkshape inn L q c ms (Some a_mesh) :: l) (Ok v0)) with (fold_left com_step (mkshape inn L q c ms None :: l) (Ok v0)).
  change (fold_left (fun m x => m + s_mass x) (mkshape inn L q c ms (Some a_mesh) :: l) 0) with (fold_left (fun m x => m + s_mass x) (mkshape inn L q c ms None :: l) 0).
  change (fold_left (qlm_step (maxl (mkshape inn L q c ms None :: l))) (mkshape inn L q c ms (Some a_mesh) :: l) (Ok None)) with (fold_left (qlm_step (maxl (mkshape inn L q c ms None :: l))) (mkshape inn L q c ms None :: l) (Ok None)).
  assert (Em : sum_mesh (map s_mesh (mkshape inn L q c ms None :: l)) = Err AttributeError).
  { cbn [map s_mesh sum_mesh]. assert (K : forall l', fold_left sum_step (map s_mesh l') (Err AttributeError) = Err AttributeError).
    { clear. induction l' as [|a l' IH]; [reflexivity|]. cbn [map fold_left]. unfold sum_step at 2. destruct (s_mesh a); exact IH. }
    now rewrite K. }
  rewrite Em. generalize (fold_left (qlm_step (maxl (mkshape inn L q c ms None :: l))) (mkshape inn L q c ms None :: l) (Ok None)). intros r.
  destruct (sum_mesh (map s_mesh (mkshape inn L q c ms (Some a_mesh) :: l))) as [m|e].
  2: { destruct r as [t|[]]; intros E; discriminate E. }
  destruct r as [t|[]]; intros E; try discriminate E; apply (f_equal fst) in E; cbn [fst] in E; rewrite <- E; reflexivity.
Qed.
Theorem C44_new_shape : forall L inner l, (0 <= L)%Z -> (forall x, In x l -> s_inner x = inner /\ wf x /\ finite x /\ s_mesh x <> None) -> total_mass l <> 0 ->
  exists s' q, shape_add (shape_init L inner) (ArgList (map Some l)) = (s', Some AttributeError) /\ s_mesh s' = None /\ s_inner s' = inner /\
    s_mass s' = total_mass l /\ s_com s' = Ok (vscal (/ total_mass l) (weighted l)) /\ s_qlm s' = Ok q /\ deg q = s_lmax s' /\
    (forall i j, (0 <= i <= s_lmax s')%Z -> (Z.abs j <= s_lmax s')%Z -> mom q i j = entries l i j).
Proof.
  intros L inner l HL H HM. set (s0 := set_mesh (shape_init L inner) (Some a_mesh)).
  assert (T : total_mass (s0 :: l) = total_mass l) by (unfold total_mass; cbn; ring).
  assert (W : weighted (s0 :: l) = weighted l). { unfold weighted. cbn [map vsum]. unfold com_of at 1. cbn. replace (vscal 0 v0) with v0 by (cbn; apply vec3; ring). apply vadd_v0. }
  destruct (C44_add_sums s0 l inner) as (s1 & q & E1 & E2 & E3 & E4 & E5 & E6 & _ & _ & E9).
  - intros x [<-|Hx]; [|now apply H]. split; [reflexivity|]. split; [|split; [|discriminate]].
    + split; [exact HL|]. intros q E. injection E as <-. reflexivity.
    + split; eexists; reflexivity.
  - now rewrite T.
  - destruct (without_mesh (shape_init L inner) l s1 eq_refl E1) as (e & E & ->). exists (set_mesh s1 None), q. split; [exact E|]. cbn. rewrite <- T, <- W. repeat (split; [assumption || reflexivity|]). intros i j Hi Hj. rewrite (E9 i j Hi Hj).
    unfold entries. cbn [fold_right]. assert (Z : entry s0 i j = RtoC 0) by (unfold entry; cbn; destruct (_ && _)%bool; reflexivity). rewrite Z. apply Cplus_0_l.
Qed.
Print Assumptions C44_new_shape.
Example C44_new_case : exists s, s_inner s = true /\ wf s /\ finite s /\ s_mesh s <> None /\ total_mass (s :: nil) <> 0.
Proof.
  exists (mkshape true 0 (Ok (zeros 0)) (Ok (1, 0, 0)) 2 (Some a_mesh)). split; [reflexivity|]. split; [|split; [|split; [discriminate|unfold total_mass; cbn; lra]]].
  - split; [cbn; lia|]. intros q E. injection E as <-. reflexivity.
  - split; eexists; reflexivity.
Qed.

(* ---- C49: OuterCone (newt/shapes.py:246-258) ---- *)
From Verif Require Import Solid MomentSpec SolidSpec GenCad QlmNum NumSpec AnnProofs NumExist Props_Num GlibShapesProofs.
(* whatever bigQlmNum.outer_cone does: if it raises for the density used, so does the constructor, and otherwise what it returned is
   thrown away *)
Theorem C49_OuterCone_calls : forall oc L mass H IR OR phih, 0 < H -> 0 < IR < OR -> 0 < phih ->
  let rho := mass / (2 * phih * H * (OR ^ 2 - IR ^ 2) / 3) in
  (forall e, oc L rho H IR OR phih = Err e -> OuterCone oc L false mass H IR OR phih = Err e) /\
  (forall q, oc L rho H IR OR phih = Ok q -> exists s, OuterCone oc L false mass H IR OR phih = Ok s /\ s_inner s = false /\ s_lmax s = L /\
     s_mass s = mass /\ s_com s = Ok v0 /\ s_qlm s = Ok (zeros L)) /\
  (exists s, OuterCone oc L true mass H IR OR phih = Ok s /\ s_inner s = true /\ s_mass s = mass /\ s_qlm s = Ok (zeros L)) /\
  (forall inner r, r <= 0 -> OuterCone oc L inner mass H r OR phih = Err ValueError).
Proof.
  intros oc L mass H IR OR ph HH HR Hp rho.
  assert (N : 2 * ph * H * (OR ^ 2 - IR ^ 2) / 3 <> 0).
  { apply Rgt_not_eq. apply Rdiv_lt_0_compat; [|lra]. apply Rmult_lt_0_compat; [apply Rmult_lt_0_compat; lra|].
    replace (OR ^ 2 - IR ^ 2) with ((OR - IR) * (OR + IR)) by ring. apply Rmult_lt_0_compat; lra. }
  unfold OuterCone. rewrite is0_no by exact N. fold rho. unfold cad_outercone. destruct (Rle_dec IR 0) as [|_]; [lra|]. cbn [bind prim].
  split; [intros e E; rewrite E; reflexivity|]. split; [|split].
  - intros q E. rewrite E. eexists. repeat split; reflexivity.
  - eexists. repeat split; reflexivity.
  - intros inn r Hr. destruct (Rle_dec r 0); [reflexivity|lra].
Qed.
Print Assumptions C49_OuterCone_calls.
Lemma conical_volume H Ri Ro ph : Ro - Ri <> 0 -> conical_sector H Ri Ro ph (fun _ _ _ => RtoC 1) (RtoC (ph * H * (Ro - Ri) * (Ro + 2 * Ri) / 3)).
Proof.
  intros N. exists (fun _ r => RtoC (r * (H * (Ro - r) / (Ro - Ri)))), (fun _ => RtoC (H * (Ro - Ri) * (Ro + 2 * Ri) / 6)).
  assert (KC : forall a b c d : R, ((b - a) * c = d)%R -> is_CInt (fun _ => RtoC c) a b (RtoC d)).
  { intros a b c d <-. apply is_CInt_real. apply (is_RInt_const (V := R_NormedModule)). }
  split; [|split].
  - intros p r. apply (is_CInt_ext (fun _ => RtoC r)); [intros; now rewrite Cmult_1_r|]. apply KC. field. exact N.
  - intros p. apply is_CInt_real. set (F := fun r : R => H / (Ro - Ri) * (Ro * r ^ 2 / 2 - r ^ 3 / 3)).
    replace (H * (Ro - Ri) * (Ro + 2 * Ri) / 6)%R with (F Ro - F Ri)%R by (unfold F; field; exact N).
    apply (is_RInt_derive (V := R_CompleteNormedModule) F (fun r => (r * (H * (Ro - r) / (Ro - Ri)))%R)).
    + intros r _. unfold F. auto_derive; [trivial|]. field. exact N.
    + intros r _. apply cont_der. auto_derive. trivial.
  - apply KC. field.
Qed.
(* with the toolkit's own outer_cone: the moments that are computed (to the accuracy of the quadrature) and discarded are those of a cone of
   between half and three quarters of the mass asked for *)
Theorem C49_OuterCone_forgets_its_moments : forall eps tpl L mass H IR OR phih, accurate eps tpl -> (0 <= L)%Z -> 0 < H -> 0 < IR < OR -> 0 < phih <= PI ->
  exists s q rho V, OuterCone (bignum_cone tpl) L false mass H IR OR phih = Ok s /\ s_mass s = mass /\ s_qlm s = Ok (zeros L) /\
  bignum_cone tpl L rho H IR OR phih = Ok q /\ approx_outer eps q rho (conical_sector H IR OR phih) /\
  conical_sector H IR OR phih (fun _ _ _ => RtoC 1) (RtoC V) /\ rho * V = mass * (OR + 2 * IR) / (2 * (OR + IR)) /\
  1 / 2 < (OR + 2 * IR) / (2 * (OR + IR)) < 3 / 4.
Proof.
  intros eps tpl L mass H IR OR ph HA HL HH HR Hp. set (rho := mass / (2 * ph * H * (OR ^ 2 - IR ^ 2) / 3)).
  destruct (C51_outer_cone eps tpl L rho H IR OR ph HA HL) as (_ & _ & K). cbv zeta in K.
  destruct K as (q & E & D & K); [intros [?|[?|[?|[?|?]]]]; lra|lra|lra|].
  destruct (C49_OuterCone_calls (bignum_cone tpl) L mass H IR OR ph) as (_ & A & _); try lra. destruct (A q E) as (s & Es & _ & _ & Em & _ & Eq).
  exists s, q, rho, (ph * H * (OR - IR) * (OR + 2 * IR) / 3). split; [exact Es|]. split; [exact Em|]. split; [exact Eq|]. split; [exact E|]. split; [exact K|]. split.
  - exact (conical_volume H IR OR ph ltac:(lra)).
  - split. 2: { split; apply Rmult_lt_reg_r with (2 * (OR + IR)); try lra; replace ((OR + 2 * IR) / (2 * (OR + IR)) * (2 * (OR + IR))) with (OR + 2 * IR) by (field; lra); lra. }
    unfold rho. field. repeat split; try lra; try (apply Rgt_not_eq; replace (OR ^ 2 - IR ^ 2) with ((OR - IR) * (OR + IR)) by ring; apply Rmult_lt_0_compat; lra).
Qed.
Print Assumptions C49_OuterCone_forgets_its_moments.
Example C49_outer_cone_case : exists s q rho, OuterCone (bignum_cone exact_tpl) 2 false 5 1 1 2 1 = Ok s /\ s_qlm s = Ok (zeros 2) /\ bignum_cone exact_tpl 2 rho 1 1 2 1 = Ok q /\ approx_outer 0 q rho (conical_sector 1 1 2 1).
Proof.
  assert (HP := PI2_1). destruct (C49_OuterCone_forgets_its_moments 0 exact_tpl 2 5 1 1 2 1) as (s & q & rho & V & A & _ & B & D & E & _); [apply exact_accurate; lra|lia|lra|lra|lra|].
  exists s, q, rho. split; [exact A|]. split; [exact B|]. split; [exact D|exact E].
Qed.
