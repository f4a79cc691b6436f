(* C44, C45 (shapes.py); C16 and C23 for continuous bodies *)
From Verif Require Import ShapesProofs ShapeSpec VInt TranslationsProofs RotationsProofs RotationsProofs2 GlibProofs2 Props_Rotations Props_Multipole.
From Verif Require Import Cplx.
Open Scope C_scope.

Lemma vec3 (a b c a' b' c' : R) : a = a' -> b = b' -> c = c' -> (a, b, c) = (a', b', c').
Proof. now intros -> -> ->. Qed.
(* ---- C16, C23: not only for point masses: any distribution whose moments are held up to degree L ---- *)
Theorem C16_any_body : forall (D : body) q t L, regular D -> (0 <= L <= deg q)%Z -> reality q -> corners0 q ->
  (forall l m, (0 <= l <= L)%Z -> (Z.abs m <= l)%Z -> D (fun x y z => rsolid l m (x, y, z)) (mom q l m)) ->
  forall l m, (0 <= l <= L)%Z -> (Z.abs m <= l)%Z -> shifted t D (fun x y z => rsolid l m (x, y, z)) (mom (translate_qlm q t) l m).
Proof. intros D q t L RD HL Hr Hc H. exact (translate_body L D q t RD HL Hr Hc H). Qed.
Theorem C23_any_body : forall (D : body) q alpha beta gamma L, regular D -> (0 <= L <= deg q)%Z ->
  (forall l m, (0 <= l <= L)%Z -> (Z.abs m <= l)%Z -> D (fun x y z => rsolid l m (x, y, z)) (mom q l m)) ->
  exists q', rotate_qlm q alpha beta gamma = Ok q' /\ deg q' = deg q /\
  forall l m, (0 <= l <= L)%Z -> (Z.abs m <= l)%Z -> turned alpha beta gamma D (fun x y z => rsolid l m (x, y, z)) (mom q' l m).
Proof.
  intros D q a b g L RD HL H. destruct (rotate_qlm_mom q a b g ltac:(lia)) as (q' & E & D1 & _).
  exists q'. split; [exact E|]. split; [exact D1|]. exact (rotate_body L D q a b g q' RD HL H E).
Qed.

(* ---- C45: after any program, every inner shape describes the moved and united bodies ---- *)
Lemma put_same st i j s : put st i s j = if Nat.eqb j i then s else st j. Proof. reflexivity. Qed.
Lemma agrees_put st w i s x : agrees st w ->
  match x with Some k => regular (k_body k) /\ describes k s /\ s_mesh s <> None | None => s_inner s = false end ->
  agrees (put st i s) (bput w i x).
Proof. intros H Hx j. unfold put, bput. destruct (Nat.eqb j i); [exact Hx|apply H]. Qed.
Lemma agrees_stay st w i s : agrees st w -> (match w i with Some k => s = st i | None => s_inner s = false end) -> agrees (put st i s) w.
Proof.
  intros H Hx j. unfold put. destruct (Nat.eqb_spec j i) as [->|]; [|apply H].
  specialize (H i). destruct (w i) as [k|]; [now rewrite Hx|exact Hx].
Qed.
Lemma gather_some st w l r : agrees st w -> gather w l = Some r -> exists ss, map (option_map st) l = map Some ss /\
  Forall2 good r ss /\ (forall s, In s ss -> s_mesh s <> None).
Proof.
  intros H. revert r. induction l as [|[j|] l IH]; intros r E; cbn [gather] in E.
  - injection E as <-. exists []. split; [reflexivity|]. split; [constructor|easy].
  - assert (Hj := H j). destruct (w j) as [x|]; [|discriminate]. destruct (gather w l) as [r'|]; [|discriminate]. injection E as <-.
    destruct (IH r' eq_refl) as (ss & E1 & E2 & E3). exists (st j :: ss). cbn [map option_map]. rewrite E1. split; [reflexivity|].
    destruct Hj as (R1 & R2 & R3). split; [constructor; [now split|assumption]|]. intros s [<-|Hs]; [exact R3|now apply E3].
  - discriminate.
Qed.
Lemma add_mixed s l : s_inner s = true -> (exists s', In s' l /\ s_inner s' = false) -> shape_add s (ArgList (map Some l)) = (s, Some TypeError).
Proof.
  intros Hi (s' & Hin & Hs). unfold shape_add. rewrite all_shapes_some. cbv zeta. cbn [forallb]. rewrite Hi. cbn [negb andb orb].
  replace (forallb s_inner l) with false; [reflexivity|]. symmetry. apply not_true_iff_false. intros F.
  rewrite (proj1 (forallb_forall _ _) F s' Hin) in Hs. discriminate.
Qed.
Lemma all_shapes_none l : In None l -> all_shapes l = None.
Proof. induction l as [|[s|] l IH]; intros []; try reflexivity; try discriminate. cbn. now rewrite (IH H). Qed.
Lemma gather_none st w l : agrees st w -> gather w l = None -> In None l \/ exists js, l = map Some js /\ exists j, In j js /\ w j = None.
Proof.
  intros H. induction l as [|[j|] l IH]; intros E; cbn [gather] in E; [discriminate| |left; now left].
  destruct (w j) as [x|] eqn:Ej.
  - destruct (gather w l) as [r|]; [discriminate|]. destruct (IH eq_refl) as [Hn|(js & -> & j' & Hj & Ej')].
    + left. now right.
    + right. exists (j :: js). split; [reflexivity|]. exists j'. split; [now right|exact Ej'].
  - destruct (in_dec (fun a b : option nat => ltac:(decide equality; apply Nat.eq_dec)) None l) as [Hn|Hn]; [left; now right|].
    right. assert (exists js, l = map Some js) as (js & ->).
    { clear -Hn. induction l as [|[a|] l IH]; [now exists []| |now destruct Hn; left].
      destruct IH as (js & ->); [intros Hl; apply Hn; now right|]. now exists (a :: js). }
    exists (j :: js). split; [reflexivity|]. exists j. split; [now left|exact Ej].
Qed.
Lemma step_agrees st w o : agrees st w -> agrees (step st o) (meaning w o).
Proof.
  intros H. destruct o as [i a b g|i t toi|i arg]; unfold step, call, meaning.
  - assert (Hi := H i). destruct (w i) as [k|] eqn:Ei.
    + destruct Hi as (RD & Hd & Hm). destruct (rotate_describes k (st i) a b g RD Hd Hm) as (s' & -> & Hd' & Hm').
      apply agrees_put; [exact H|]. split; [apply regular_eulerD; exact RD|now split].
    + destruct (shape_rotate (st i) a b g) as [s' e] eqn:E. apply agrees_stay; [exact H|]. rewrite Ei.
      unfold shape_rotate in E. cbv zeta in E. destruct (rotate_mesh _ _ _ _); injection E as <- _; exact Hi.
  - assert (Hi := H i). destruct toi.
    + destruct (w i) as [k|] eqn:Ei.
      * destruct Hi as (RD & Hd & Hm). destruct (translate_describes k (st i) t RD Hd Hm) as (s' & -> & Hd' & Hm').
        apply agrees_put; [exact H|]. split; [apply regular_shifted; exact RD|now split].
      * destruct (shape_translate (st i) t true) as [s' e] eqn:E. apply agrees_stay; [exact H|]. rewrite Ei.
        unfold shape_translate in E. cbv zeta in E. destruct (translate_mesh _ _); [|injection E as <- _; exact Hi].
        unfold set_mesh, set_com in E. cbn [s_inner] in E. rewrite Hi in E. cbn [andb negb] in E. injection E as <- _. first [exact Hi|reflexivity].
    + destruct (shape_translate (st i) t false) as [s' e] eqn:E. apply agrees_put; [exact H|].
      unfold shape_translate in E. cbv zeta in E. unfold set_com in E. cbn [s_mesh] in E.
      destruct (w i) as [k|].
      * destruct Hi as (_ & Hd & Hm). destruct (s_mesh (st i)) as [me|]; [|easy]. cbn [translate_mesh] in E.
        unfold set_mesh in E. cbn [s_inner] in E. rewrite (d_inner k _ Hd) in E. cbn [andb negb] in E. injection E as <- _. reflexivity.
      * destruct (translate_mesh _ _); [|injection E as <- _; exact Hi].
        unfold set_mesh in E. cbn [s_inner] in E. rewrite Hi in E. cbn [andb negb] in E. injection E as <- _. first [exact Hi|reflexivity].
  - assert (Hi := H i). destruct arg as [j|l|]; cbn [resolve].
    + assert (Hj := H j). destruct (shape_add (st i) (ArgShape (st j))) as [s' e] eqn:E.
      assert (HI : s_inner s' = s_inner (st i)) by (rewrite <- (add_inner (st i) (ArgShape (st j))), E; reflexivity).
      destruct (w i) as [x|] eqn:Ei.
      * destruct Hi as (RD & Hd & Hm). destruct (w j) as [y|] eqn:Ej.
        -- destruct Hj as (RD' & Hd' & Hm').
           destruct (add_list_describes x (st i) (y :: nil) (st j :: nil)) as (s2 & E2 & [G1 G2] & G3); [now split|constructor; [now split|constructor]|assumption|now intros ? [<-|[]]|].
           rewrite add_shape_list, E2 in E. injection E as <- _. apply agrees_put; [exact H|]. now split; [|split].
        -- apply agrees_stay; [exact H|]. rewrite Ei. rewrite add_shape_list, add_mixed in E.
           ++ now injection E.
           ++ apply Hd.
           ++ exists (st j). split; [now left|exact Hj].
      * apply agrees_stay; [exact H|]. rewrite Ei, HI. exact Hi.
    + destruct (shape_add (st i) (ArgList (map (option_map st) l))) as [s' e] eqn:E.
      assert (HI : s_inner s' = s_inner (st i)) by (rewrite <- (add_inner (st i) (ArgList (map (option_map st) l))), E; reflexivity).
      destruct (w i) as [x|] eqn:Ei.
      * destruct Hi as (RD & Hd & Hm). destruct (gather w l) as [r|] eqn:Eg.
        -- destruct (gather_some st w l r H Eg) as (ss & E1 & E2 & E3). rewrite E1 in E.
           destruct (add_list_describes x (st i) r ss) as (s2 & E4 & [G1 G2] & G3); [now split|assumption|assumption|assumption|].
           rewrite E4 in E. injection E as <- _. apply agrees_put; [exact H|]. now split; [|split].
        -- apply agrees_stay; [exact H|]. rewrite Ei. destruct (gather_none st w l H Eg) as [Hn|(js & -> & j & Hj & Ej)].
           ++ unfold shape_add in E. rewrite all_shapes_none in E by (apply in_map_iff; exists None; now split). now injection E.
           ++ replace (map (option_map st) (map Some js)) with (map Some (map st js)) in E by now rewrite !map_map.
              rewrite add_mixed in E; [now injection E|apply Hd|]. exists (st j). split; [now apply in_map|].
              assert (K := H j). now rewrite Ej in K.
      * apply agrees_stay; [exact H|]. rewrite Ei, HI. exact Hi.
    + apply agrees_stay; [exact H|]. destruct (w i); [reflexivity|exact Hi].
Qed.
Theorem C45_any_history : forall ops st w, agrees st w -> agrees (run ops st) (fold_left meaning ops w).
Proof.
  induction ops as [|o ops IH]; intros st w H; [exact H|]. unfold run in *. cbn [fold_left]. apply IH. now apply step_agrees.
Qed.
Print Assumptions C45_any_history.

(* ---- C45: what rotate and translate do besides ---- *)
(* an outer shape cannot be translated inwards: ValueError, but the centre of mass and the mesh have already moved *)
Theorem C45_outer_to_inner_moves_half_the_state : forall s t m, s_inner s = false -> s_mesh s = Some m ->
  exists s', shape_translate s t true = (s', Some ValueError) /\ s_inner s' = false /\ s_qlm s' = s_qlm s /\ s_mass s' = s_mass s /\
  (forall c, s_com s = Ok c -> s_com s' = Ok (vadd c t)) /\
  (exists m', s_mesh s' = Some m' /\ pmass m' = pmass m /\ forall v, mset m' (vadd v t) <-> mset m v).
Proof.
  intros [inn L q c ms me] t m Hi Hm. cbn in *. subst inn me. eexists. split; [reflexivity|]. cbn.
  repeat (split; [reflexivity|]). split; [intros c' ->; reflexivity|].
  eexists. split; [reflexivity|]. split; [reflexivity|]. intros v. cbn. unfold set_translate.
  replace (vsub (vadd v t) t) with v; [reflexivity|]. destruct v as [[x y] z], t as [[a b] d]. cbn. apply vec3; ring.
Qed.
(* inner to outer is exact on what translate_q2Q does; with a zero vector no finite moments result, yet no error is raised *)
Theorem C45_inner_to_outer : forall s t q, s_inner s = true -> s_mesh s <> None -> s_qlm s = Ok q ->
  exists s', shape_translate s t false = (s', None) /\ s_inner s' = false /\ s_qlm s' = translate_q2Q q t /\
  (t = v0 -> s_qlm s' = Err NotFinite).
Proof.
  intros [inn L qs c ms me] t q Hi Hm Hq. cbn in *. subst inn qs. destruct me as [me|]; [|easy]. eexists. split; [reflexivity|]. cbn.
  split; [reflexivity|]. split; [reflexivity|]. intros ->. unfold translate_q2Q. rewrite TranslationsProofs.is0_true; [reflexivity|]. now apply vnorm_0_iff.
Qed.
(* rotating an outer shape turns its moments by (-alpha, beta, -gamma) but its centre of mass by (alpha, beta, gamma) *)
Theorem C45_rotating_an_outer_shape : forall s Q P c alpha beta gamma m, (0 <= deg Q)%Z -> s_inner s = false -> s_mesh s = Some m ->
  s_qlm s = Ok Q -> holds Q (outer_moment P) -> s_com s = Ok c ->
  exists s' Q', shape_rotate s alpha beta gamma = (s', None) /\ s_qlm s' = Ok Q' /\ s_com s' = Ok (zrot alpha (yrot beta (zrot gamma c))) /\
  holds Q' (outer_moment (map (fun p => mkpt (pm p) (zrot (- alpha) (yrot beta (zrot (- gamma) (pp p))))) P)).
Proof.
  intros [inn L qs cs ms me] Q P c a b g m HL Hi Hm Hq H Hc. cbn in *. subst.
  destruct (C23_rotate_qlm_on_outer_moments Q P a b g HL H) as (Q' & E & _ & H'). eexists _, Q'. split; [reflexivity|].
  split; [exact E|]. split; [|exact H']. exact (com_rotated ms c a b g).
Qed.
(* the drawn mesh is turned by alpha first and gamma last, the moments and the centre of mass by gamma first *)
Lemma zrot_inv a v : zrot (- a) (zrot a v) = v.
Proof.
  destruct v as [[x y] z]. cbn. rewrite cos_neg, sin_neg. assert (H := sin2_cos2 a). unfold Rsqr in H.
  apply vec3; [transitivity ((sin a * sin a + cos a * cos a) * x)%R|transitivity ((sin a * sin a + cos a * cos a) * y)%R|reflexivity]; try ring; rewrite H; ring.
Qed.
Lemma yrot_inv a v : yrot (- a) (yrot a v) = v.
Proof.
  destruct v as [[x y] z]. cbn. rewrite cos_neg, sin_neg. assert (H := sin2_cos2 a). unfold Rsqr in H.
  apply vec3; [transitivity ((sin a * sin a + cos a * cos a) * x)%R|reflexivity|transitivity ((sin a * sin a + cos a * cos a) * z)%R]; try ring; rewrite H; ring.
Qed.
Theorem C45_mesh_turns_in_the_opposite_order : forall s alpha beta gamma m c, s_mesh s = Some m -> s_com s = Ok c ->
  exists s' m', shape_rotate s alpha beta gamma = (s', None) /\ s_mesh s' = Some m' /\ pmass m' = pmass m /\
  (forall v, mset m' (zrot gamma (yrot beta (zrot alpha v))) <-> mset m v) /\
  s_com s' = Ok (zrot alpha (yrot beta (zrot gamma c))).
Proof.
  intros [inn L qs cs ms me] a b g m c Hm Hc. cbn in *. subst. eexists _, _. split; [reflexivity|]. split; [reflexivity|]. split; [reflexivity|].
  split; [|exact (com_rotated ms c a b g)]. intros v. cbn [mset]. unfold set_rotz, set_roty. now rewrite zrot_inv, yrot_inv, zrot_inv.
Qed.
(* a point of the body away from the axes ends up in different places *)
Example C45_mesh_order_matters : zrot 0 (yrot (PI / 2) (zrot (PI / 2) (1, 0, 0)%R)) <> zrot (PI / 2) (yrot (PI / 2) (zrot 0 (1, 0, 0)%R)).
Proof. cbn. rewrite cos_0, sin_0, cos_PI2, sin_PI2. intros E. injection E. intros. lra. Qed.
(* the base class has no mesh: every method fails half way *)
Theorem C45_shape_without_mesh : forall s alpha beta gamma t b l, s_mesh s = None ->
  (exists s', shape_rotate s alpha beta gamma = (s', Some AttributeError) /\ s_com s' = s_com s /\
     s_qlm s' = do q <- s_qlm s; rotate_qlm q alpha beta gamma) /\
  (exists s', shape_translate s t b = (s', Some AttributeError) /\ s_qlm s' = s_qlm s /\ s_inner s' = s_inner s /\
     s_com s' = do c <- s_com s; Ok (vadd c t)) /\
  snd (shape_add s (ArgList l)) <> None.
Proof.
  intros [inn L q c ms me] a b g t toi l Hm. cbn in Hm. subst me. split; [|split].
  - eexists. split; [reflexivity|]. now split.
  - eexists. split; [reflexivity|]. now repeat split.
  - unfold shape_add. destruct (all_shapes l) as [l'|]; [|discriminate]. cbv zeta. destruct (_ || _)%bool; [|discriminate].
    assert (Em : sum_mesh (map s_mesh (mkshape inn L q c ms None :: l')) = Err AttributeError).
    { cbn [map s_mesh sum_mesh]. assert (K : forall l', fold_left sum_step (map s_mesh l') (Err AttributeError) = Err AttributeError).
      { clear. induction l' as [|a l' IH]; [reflexivity|]. cbn [map fold_left]. unfold sum_step at 2. destruct (s_mesh a); exact IH. }
      now rewrite K. }
    rewrite Em. destruct (fold_left _ _ _) as [?|[]]; discriminate.
Qed.

(* ---- C44: add ---- *)
Definition wf (s : shape) : Prop := (0 <= s_lmax s)%Z /\ forall q, s_qlm s = Ok q -> deg q = s_lmax s.
(* entry (l,m) of a shape's moments, 0 beyond its degree *)
Definition entry (s : shape) (l m : Z) : C :=
  match s_qlm s with Ok q => if ((l <=? s_lmax s) && (Z.abs m <=? s_lmax s))%bool%Z then mom q l m else 0 | Err _ => 0 end.
Definition total_mass (l : list shape) : R := fold_right (fun s a => s_mass s + a)%R 0%R l.
Definition com_of (s : shape) : vec := match s_com s with Ok c => c | Err _ => v0 end.
Definition weighted (l : list shape) : vec := vsum (map (fun s => vscal (s_mass s) (com_of s)) l).
Definition finite (s : shape) : Prop := (exists q, s_qlm s = Ok q) /\ (exists c, s_com s = Ok c).
Lemma mass_fold l a : fold_left (fun m x => (m + s_mass x)%R) l a = (a + total_mass l)%R.
Proof. revert a. induction l as [|s l IH]; intros a; cbn; [ring|]. rewrite IH. unfold total_mass. ring. Qed.
Lemma vadd_assoc u v w : vadd (vadd u v) w = vadd u (vadd v w).
Proof. destruct u as [[? ?] ?], v as [[? ?] ?], w as [[? ?] ?]. cbn. apply vec3; ring. Qed.
Lemma vadd_v0 v : vadd v0 v = v.
Proof. destruct v as [[? ?] ?]. cbn. apply vec3; ring. Qed.
Lemma vadd_v0_r v : vadd v v0 = v.
Proof. destruct v as [[? ?] ?]. cbn. apply vec3; ring. Qed.
Lemma com_fold l a : List.Forall finite l -> fold_left com_step l (Ok a) = Ok (vadd a (weighted l)).
Proof.
  intros F. revert a. induction F as [|s l [_ [c Hc]] F IH]; intros a; cbn [fold_left].
  - unfold weighted. cbn [map vsum]. now rewrite vadd_v0_r.
  - unfold com_step at 2. cbn [bind]. rewrite Hc. cbn [bind]. rewrite IH, vadd_assoc. unfold weighted, com_of at 2. cbn [map vsum]. now rewrite Hc.
Qed.
Definition entries (l : list shape) (i j : Z) : C := fold_right (fun s a => entry s i j + a) 0 l.
Lemma qlm_fold lmax l t : (0 <= lmax)%Z -> List.Forall finite l -> List.Forall wf l -> (forall s, In s l -> (s_lmax s <= lmax)%Z) -> deg t = lmax ->
  exists q, fold_left (qlm_step lmax) l (Ok (Some t)) = Ok (Some q) /\ deg q = lmax /\
  forall i j, (0 <= i <= lmax)%Z -> (Z.abs j <= lmax)%Z -> mom q i j = mom t i j + entries l i j.
Proof.
  intros HL F. revert t. induction F as [|s l [[q Hq] _] F IH]; intros t W Hl Dt.
  - exists t. split; [reflexivity|]. split; [exact Dt|]. intros. cbn. ring.
  - inversion W as [|? ? [W1 W2] W3]; subst. cbn [fold_left].
    assert (K : exists q', to_lmax (deg t) s = Ok (EArr q') /\ deg q' = deg t /\ forall i j, (0 <= i <= deg t)%Z -> (Z.abs j <= deg t)%Z -> mom q' i j = entry s i j).
    { unfold to_lmax, entry. rewrite Hq. cbn [bind]. destruct (Z.eqb_spec (s_lmax s) (deg t)) as [E|E].
      - exists q. split; [reflexivity|]. split; [rewrite (W2 q Hq); exact E|]. intros. now rewrite (proj2 (Z.leb_le i _)), (proj2 (Z.leb_le (Z.abs j) _)) by lia.
      - destruct (C34_embed q (deg t)) as (q' & E' & D' & H'); [rewrite (W2 q Hq); lia|lia|]. exists q'. rewrite E'. split; [reflexivity|]. split; [exact D'|].
        intros. rewrite H', (W2 q Hq) by lia. reflexivity. }
    destruct K as (q' & E1 & D1 & H1).
    destruct (IH (mkarr (deg t) (fun i j => at_ t i j + at_ q' i j))) as (r & Er & Dr & Hr); [exact W3|intros; apply Hl; now right|reflexivity|].
    exists r. split; [|split; [exact Dr|]].
    + rewrite <- Er. f_equal. unfold qlm_step. cbn [bind]. rewrite E1. cbn [bind acc_add]. now rewrite D1, Z.eqb_refl.
    + intros i j Hi Hj. rewrite Hr by assumption. unfold entries. cbn [fold_right]. rewrite <- (H1 i j) by assumption. unfold mom. cbn [deg at_]. rewrite D1. ring.
Qed.
Lemma forallb_ind (P : shape -> bool) l : (forall s, In s l -> P s = true) -> forallb P l = true.
Proof. intros. now apply forallb_forall. Qed.
Theorem C44_add_sums : forall s l b, (forall x, In x (s :: l) -> s_inner x = b /\ wf x /\ finite x /\ s_mesh x <> None) ->
  total_mass (s :: l) <> 0%R ->
  exists s' q, shape_add s (ArgList (map Some l)) = (s', None) /\ s_inner s' = b /\
    s_mass s' = total_mass (s :: l) /\
    s_com s' = Ok (vscal (/ total_mass (s :: l)) (weighted (s :: l))) /\
    s_qlm s' = Ok q /\ deg q = s_lmax s' /\
    (forall x, In x (s :: l) -> (s_lmax x <= s_lmax s')%Z) /\ (exists x, In x (s :: l) /\ s_lmax x = s_lmax s') /\
    (forall i j, (0 <= i <= s_lmax s')%Z -> (Z.abs j <= s_lmax s')%Z -> mom q i j = entries (s :: l) i j).
Proof.
  intros s l b H HM. unfold shape_add. rewrite all_shapes_some. cbv zeta. set (lmax := maxl (s :: l)).
  assert (HB : (forallb s_inner (s :: l) || forallb (fun x => negb (s_inner x)) (s :: l))%bool = true).
  { destruct b; apply orb_true_intro; [left|right]; apply forallb_ind; intros x Hx; now rewrite (proj1 (H x Hx)). }
  rewrite HB.
  assert (F : List.Forall finite (s :: l)) by (apply List.Forall_forall; intros x Hx; apply (H x Hx)).
  assert (W : List.Forall wf (s :: l)) by (apply List.Forall_forall; intros x Hx; apply (H x Hx)).
  rewrite (com_fold _ _ F), vadd_v0, mass_fold, Rplus_0_l.
  assert (HL : (0 <= lmax)%Z). { assert (s_lmax s <= lmax)%Z by (apply (maxl_ge (s :: l) s); now left). destruct (H s (or_introl eq_refl)) as (_ & [? _] & _). lia. }
  assert (EQ : exists q, fold_left (qlm_step lmax) (s :: l) (Ok None) = Ok (Some q) /\ deg q = lmax /\
     forall i j, (0 <= i <= lmax)%Z -> (Z.abs j <= lmax)%Z -> mom q i j = entries (s :: l) i j).
  { destruct (qlm_fold lmax (s :: l) (zeros lmax) HL F W) as (q & E & Dq & Hq); [intros x Hx; now apply (maxl_ge (s :: l))|reflexivity|].
    inversion F as [|? ? [[q0 Hq0] _] F']; subst. inversion W as [|? ? [W1 W2] W']; subst.
    assert (K : exists q', to_lmax lmax s = Ok (EArr q') /\ deg q' = lmax /\ forall i j, (0 <= i <= lmax)%Z -> (Z.abs j <= lmax)%Z -> mom q' i j = entry s i j).
    { unfold to_lmax, entry. rewrite Hq0. cbn [bind]. assert (s_lmax s <= lmax)%Z by (apply (maxl_ge (s :: l) s); now left). destruct (Z.eqb_spec (s_lmax s) lmax) as [E1|E1].
      - exists q0. split; [reflexivity|]. split; [rewrite (W2 q0 Hq0); exact E1|]. intros. now rewrite (proj2 (Z.leb_le i _)), (proj2 (Z.leb_le (Z.abs j) _)) by lia.
      - destruct (C34_embed q0 lmax) as (q' & E' & D' & H'); [rewrite (W2 q0 Hq0); lia|lia|]. exists q'. rewrite E'. split; [reflexivity|]. split; [exact D'|].
        intros. rewrite H', (W2 q0 Hq0) by lia. reflexivity. }
    destruct K as (q' & E1 & D1 & H1).
    destruct (qlm_fold lmax l q' HL F' W') as (r & Er & Dr & Hr); [intros x Hx; apply (maxl_ge (s :: l)); now right|exact D1|].
    exists r. split; [|split; [exact Dr|]].
    - rewrite <- Er. cbn [fold_left]. f_equal. unfold qlm_step. cbn [bind]. rewrite E1. reflexivity.
    - intros i j Hi Hj. rewrite Hr, H1 by assumption. reflexivity. }
  destruct EQ as (q & Eq & Dq & Hq). rewrite Eq. cbn [bind].
  destruct (sum_mesh_some (map s_mesh (s :: l))) as (me & Em); [easy| |].
  { intros m Hin. apply in_map_iff in Hin. destruct Hin as (x & <- & Hx). apply (H x Hx). }
  rewrite Em. eexists _, q. split; [reflexivity|]. unfold set_mesh. cbn [s_inner s_mass s_com s_qlm s_lmax].
  split; [apply (H s); now left|]. split; [reflexivity|]. split; [|split; [reflexivity|split; [exact Dq|split; [|split; [|exact Hq]]]]].
  - unfold com_div. cbn [bind]. now rewrite TranslationsProofs.is0_false by assumption.
  - intros x Hx. now apply (maxl_ge (s :: l)).
  - unfold lmax, maxl. clear. assert (G : forall b (l : list shape), (exists x, In x l /\ s_lmax x = fold_right (fun s m => Z.max (s_lmax s) m) b l) \/ fold_right (fun s m => Z.max (s_lmax s) m) b l = b).
    { clear s l. intros b. induction l as [|a l IH]; [now right|]. cbn [fold_right]. destruct IH as [(x & Hx & E)|E].
      - destruct (Z.max_spec (s_lmax a) (fold_right (fun s m => Z.max (s_lmax s) m) b l)) as [[_ E2]|[_ E2]]; rewrite E2.
        + left. exists x. split; [now right|exact E].
        + left. exists a. split; [now left|reflexivity].
      - rewrite E. destruct (Z.max_spec (s_lmax a) b) as [[_ E2]|[_ E2]]; rewrite E2; [now right|]. left. exists a. split; [now left|reflexivity]. }
    destruct (G (s_lmax s) (s :: l)) as [K|K]; [exact K|]. exists s. split; [now left|]. now rewrite K.
Qed.
(* one Shape instead of a list *)
Theorem C44_single_shape_is_a_list_of_one : forall s s', shape_add s (ArgShape s') = shape_add s (ArgList (Some s' :: nil)).
Proof. reflexivity. Qed.
(* masses that cancel leave no finite centre of mass, and no error *)
Theorem C44_cancelling_masses : forall s l b, (forall x, In x (s :: l) -> s_inner x = b /\ wf x /\ finite x /\ s_mesh x <> None) ->
  total_mass (s :: l) = 0%R -> exists s', shape_add s (ArgList (map Some l)) = (s', None) /\ s_com s' = Err NotFinite /\ s_mass s' = 0%R.
Proof.
  intros s l b H HM. unfold shape_add. rewrite all_shapes_some. cbv zeta. set (lmax := maxl (s :: l)).
  assert (HB : (forallb s_inner (s :: l) || forallb (fun x => negb (s_inner x)) (s :: l))%bool = true).
  { destruct b; apply orb_true_intro; [left|right]; apply forallb_ind; intros x Hx; now rewrite (proj1 (H x Hx)). }
  rewrite HB.
  assert (F : List.Forall finite (s :: l)) by (apply List.Forall_forall; intros x Hx; apply (H x Hx)).
  assert (W : List.Forall wf (s :: l)) by (apply List.Forall_forall; intros x Hx; apply (H x Hx)).
  rewrite (com_fold _ _ F), vadd_v0, mass_fold, Rplus_0_l.
  assert (HL : (0 <= lmax)%Z). { assert (s_lmax s <= lmax)%Z by (apply (maxl_ge (s :: l) s); now left). destruct (H s (or_introl eq_refl)) as (_ & [? _] & _). lia. }
  destruct (sum_mesh_some (map s_mesh (s :: l))) as (me & Em); [easy| |].
  { intros m Hin. apply in_map_iff in Hin. destruct Hin as (x & <- & Hx). apply (H x Hx). }
  rewrite Em.
  assert (EQ : exists q, fold_left (qlm_step lmax) (s :: l) (Ok None) = Ok q).
  { inversion F as [|? ? [[q0 Hq0] _] F']; subst. inversion W as [|? ? [W1 W2] W']; subst.
    assert (K : exists q', to_lmax lmax s = Ok (EArr q') /\ deg q' = lmax).
    { unfold to_lmax. rewrite Hq0. cbn [bind]. destruct (Z.eqb_spec (s_lmax s) lmax) as [E1|E1].
      - exists q0. split; [reflexivity|]. rewrite (W2 q0 Hq0); exact E1.
      - destruct (C34_embed q0 lmax) as (q' & E' & D' & H'); [rewrite (W2 q0 Hq0); lia|lia|]. exists q'. now rewrite E'. }
    destruct K as (q' & E1 & D1).
    destruct (qlm_fold lmax l q' HL F' W') as (r & Er & Dr & Hr); [intros x Hx; apply (maxl_ge (s :: l)); now right|exact D1|].
    exists (Some r). rewrite <- Er. cbn [fold_left]. f_equal. unfold qlm_step. cbn [bind]. rewrite E1. reflexivity. }
  destruct EQ as (q & ->). eexists. split; [reflexivity|]. unfold set_mesh. cbn [s_com s_mass]. split; [|exact HM].
  unfold com_div. cbn [bind]. now rewrite TranslationsProofs.is0_true by assumption.
Qed.
(* wrong arguments: the exception of the documentation (or AttributeError for a list element that is no Shape), and
   nothing has been changed *)
Theorem C44_bad_arguments_change_nothing : forall s l,
  shape_add s ArgOther = (s, Some TypeError) /\
  (In None l -> shape_add s (ArgList l) = (s, Some AttributeError)) /\
  (forall ss, (exists x y, In x (s :: ss) /\ In y (s :: ss) /\ s_inner x <> s_inner y) -> shape_add s (ArgList (map Some ss)) = (s, Some TypeError)).
Proof.
  intros s l. split; [reflexivity|]. split.
  - intros H. unfold shape_add. now rewrite all_shapes_none.
  - intros ss (x & y & Hx & Hy & Hd). unfold shape_add. rewrite all_shapes_some. cbv zeta.
    replace (forallb s_inner (s :: ss) || forallb (fun x => negb (s_inner x)) (s :: ss))%bool with false; [reflexivity|].
    symmetry. apply orb_false_intro; apply not_true_iff_false; intros F.
    + assert (A := proj1 (forallb_forall _ _) F x Hx). assert (B := proj1 (forallb_forall _ _) F y Hy). congruence.
    + assert (A := proj1 (forallb_forall _ _) F x Hx). assert (B := proj1 (forallb_forall _ _) F y Hy). cbn beta in A, B.
      destruct (s_inner x), (s_inner y); congruence || discriminate.
Qed.
(* the drawn result: the first mesh with the meshes of positive mass united and those of negative mass cut, in order;
   the sign of the first mass is ignored *)
Fixpoint drawn (X : vec -> Prop) (ms : list mesh) : vec -> Prop :=
  match ms with [] => X | m :: ms => drawn (if pmass m then fun v => X v \/ mset m v else fun v => X v /\ ~ mset m v) ms end.
Theorem C44_mesh : forall m ms, exists r, sum_mesh (Some m :: map Some ms) = Ok r /\ pmass r = true /\ mset r = drawn (mset m) ms.
Proof.
  intros m ms. unfold sum_mesh. assert (G : exists r, fold_left sum_step (map Some ms) (Ok m) = Ok r /\ mset r = drawn (mset m) ms).
  { revert m. induction ms as [|a ms IH]; intros m; [now exists m|]. cbn [map fold_left]. unfold sum_step at 2. cbn [bind].
    destruct (IH (mkmesh (if pmass a then fun v => mset m v \/ mset a v else fun v => mset m v /\ ~ mset a v) (pmass m))) as (r & E & H).
    exists r. split; [exact E|]. rewrite H. reflexivity. }
  destruct G as (r & -> & H). eexists. split; [reflexivity|]. now split.
Qed.
Print Assumptions C44_add_sums.

(* ---- C45: the degree of the moment array is the attribute lmax, after any program, with or without exceptions ---- *)
Lemma step_wf st o : (forall i, wf (st i)) -> forall i, wf (step st o i).
Proof.
  intros H i. unfold step. destruct o as [j a b g|j t toi|j arg]; cbn [call].
  - destruct (shape_rotate (st j) a b g) as [s e] eqn:E. unfold put. destruct (Nat.eqb i j); [|apply H].
    destruct (H j) as [W1 W2]. unfold shape_rotate in E. cbv zeta in E.
    assert (G : wf (set_qlm (st j) (do q <- s_qlm (st j); rotate_qlm q a b g))).
    { split; [exact W1|]. unfold set_qlm. cbn [s_qlm s_lmax]. intros q. destruct (s_qlm (st j)) as [q0|]; [|discriminate]. cbn [bind].
      destruct (rotate_qlm_mom q0 a b g) as (q1 & E1 & D1 & _); [rewrite (W2 q0 eq_refl); exact W1|]. rewrite E1. intros K. injection K as <-. rewrite D1. now apply W2. }
    destruct (rotate_mesh _ _ _ _); injection E as <- _; exact G.
  - destruct (shape_translate (st j) t toi) as [s e] eqn:E. unfold put. destruct (Nat.eqb i j); [|apply H].
    destruct (H j) as [W1 W2]. unfold shape_translate in E. cbv zeta in E.
    destruct (translate_mesh _ _) as [m|]; [|injection E as <- _; now split].
    unfold set_mesh, set_com, set_qlm, set_inner in E. cbn [s_inner s_qlm s_lmax s_com s_mass s_mesh] in E.
    destruct (s_inner (st j)), toi; cbn [andb negb] in E; injection E as <- _; (split; [exact W1|]); cbn [s_qlm s_lmax]; try exact W2;
      intros q; destruct (s_qlm (st j)) as [q0|]; try discriminate; cbn [bind].
    + intros K. injection K as <-. rewrite <- (W2 q0 eq_refl). unfold translate_qlm. destruct (is0 _); [reflexivity|]. unfold Arr.reflect; cbn [deg]. rewrite deg_fill by (rewrite (W2 q0 eq_refl); lia). reflexivity.
    + destruct (Req_EM_T (vnorm t) 0) as [E0|E0]; [unfold translate_q2Q; rewrite TranslationsProofs.is0_true by assumption; discriminate|].
      destruct (translate_q2Q_holds q0 t) as (Q & E1 & D1 & _); [rewrite (W2 q0 eq_refl); exact W1|exact E0|]. rewrite E1. intros K. injection K as <-. rewrite D1. now apply W2.
    + intros K. injection K as <-. rewrite <- (W2 q0 eq_refl). unfold translate_Qlmb. destruct (is0 _); [reflexivity|]. unfold Arr.reflect; cbn [deg]. rewrite deg_fill by (rewrite (W2 q0 eq_refl); lia). reflexivity.
  - destruct (shape_add (st j) (resolve st arg)) as [s e] eqn:E. unfold put. destruct (Nat.eqb i j); [|apply H].
    assert (GL : forall l, all_shapes (map (option_map st) l) = None \/ exists js, all_shapes (map (option_map st) l) = Some (map st js)).
    { clear. induction l as [|[a|] l IH]; [right; now exists []| |now left]. cbn. destruct IH as [->|(js & ->)]; [now left|]. right. now exists (a :: js). }
    assert (GA : e = Some TypeError /\ s = st j \/ e = Some AttributeError /\ s = st j \/ exists js, shape_add (st j) (ArgList (map Some (map st js))) = (s, e)).
    { destruct arg as [k|l|]; cbn [resolve] in E.
      - right. right. exists (k :: nil). exact E.
      - destruct (GL l) as [Hn|(js & Hn)].
        + right. left. unfold shape_add in E. rewrite Hn in E. injection E as <- <-. now split.
        + right. right. exists js. rewrite <- E. unfold shape_add. now rewrite Hn, all_shapes_some.
      - left. injection E as <- <-. now split. }
    destruct GA as [[_ ->]|[[_ ->]|(js & E1)]]; [apply H|apply H|]. clear E. unfold shape_add in E1. rewrite all_shapes_some in E1. cbv zeta in E1.
    set (L := (st j :: map st js) : list shape) in *. destruct (_ || _)%bool; [|injection E1 as <- _; apply H].
    assert (WL : forall x, In x L -> wf x).
    { intros x [<-|Hx]; [apply H|]. apply in_map_iff in Hx. destruct Hx as (k & <- & _). apply H. }
    assert (HL : (0 <= maxl L)%Z). { assert (s_lmax (st j) <= maxl L)%Z by (apply maxl_ge; now left). destruct (H j). lia. }
    assert (GQ : forall ss acc, (forall x, In x ss -> wf x /\ (s_lmax x <= maxl L)%Z) -> (forall t, acc = Ok (Some t) -> deg t = maxl L) ->
       forall t, fold_left (qlm_step (maxl L)) ss acc = Ok (Some t) -> deg t = maxl L).
    { clear E1. induction ss as [|x ss IH]; intros acc Hx Ha t Et; [now apply Ha|]. cbn [fold_left] in Et. revert Et. apply IH; [intros; apply Hx; now right|].
      intros t' Et'. unfold qlm_step in Et'. destruct acc as [o|]; [|discriminate]. cbn [bind] in Et'.
      destruct (Hx x (or_introl eq_refl)) as [[W1 W2] W3]. unfold to_lmax in Et'. destruct (s_qlm x) as [q|]; [|discriminate]. cbn [bind] in Et'.
      assert (K : forall y, deg y = maxl L -> acc_add o y = Ok (Some t') -> deg t' = maxl L).
      { intros y Dy Ey. destruct o as [o|]; cbn [acc_add] in Ey.
        - rewrite Dy, (Ha o eq_refl), Z.eqb_refl in Ey. injection Ey as <-. reflexivity.
        - injection Ey as <-. exact Dy. }
      destruct (Z.eqb_spec (s_lmax x) (maxl L)) as [E2|E2]; cbn [bind] in Et'.
      - apply (K q); [rewrite (W2 q eq_refl); exact E2|exact Et'].
      - destruct (C34_embed q (maxl L)) as (q' & E' & D' & _); [rewrite (W2 q eq_refl); lia|lia|]. rewrite E' in Et'. now apply (K q'). }
    specialize (GQ L (Ok None)). destruct (fold_left (qlm_step (maxl L)) L (Ok None)) as [o|x].
    + assert (GW : forall me, wf (mkshape (s_inner (st j)) (maxl L) (do t <- Ok o; match t with Some t => Ok t | None => Ok (zeros (maxl L)) end)
          (com_div (fold_left com_step L (Ok v0)) (fold_left (fun m x => (m + s_mass x)%R) L 0%R)) (fold_left (fun m x => (m + s_mass x)%R) L 0%R) me)).
      { intros me. split; [exact HL|]. cbn [s_qlm s_lmax bind]. intros q Eq. destruct o as [t|]; injection Eq as <-; [|reflexivity].
        apply GQ; [intros x Hx; split; [now apply WL|now apply maxl_ge]|discriminate|reflexivity]. }
      cbn [bind] in *. destruct (sum_mesh _); injection E1 as <- _; apply GW.
    + assert (GW : forall e' me, wf (mkshape (s_inner (st j)) (maxl L) (Err e')
          (com_div (fold_left com_step L (Ok v0)) (fold_left (fun m x => (m + s_mass x)%R) L 0%R)) (fold_left (fun m x => (m + s_mass x)%R) L 0%R) me)).
      { intros e' me. split; [exact HL|discriminate]. }
      cbn [bind] in *. destruct x; try (injection E1 as <- _; apply H); destruct (sum_mesh _); injection E1 as <- _; apply GW.
Qed.
Theorem C45_degree_is_lmax : forall ops st, (forall i, wf (st i)) -> forall i, wf (run ops st i).
Proof.
  induction ops as [|o ops IH]; intros st H i; [apply H|]. unfold run in *. cbn [fold_left]. apply IH. now apply step_wf.
Qed.
Print Assumptions C45_degree_is_lmax.
