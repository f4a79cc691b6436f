(* Proofs about shapes.py *)
From Verif Require Import ShapeSpec VInt TranslationsProofs RotationsProofs RotationsProofs2 MultipoleProofs GlibProofs2 Props_Multipole Props_Rotations.
From Verif Require Import Cplx.
Open Scope C_scope.

(* ---- the bodies are linear functionals ---- *)
Lemma regular_shifted t D : regular D -> regular (shifted t D).
Proof.
  intros RD. destruct t as [[a b] c]. constructor; unfold shifted; cbn [vadd].
  - intros f g I E. apply (reg_ext D RD). intros. apply E.
  - intros. now apply (reg_scal D RD).
  - intros. now apply (reg_plus D RD).
  - intros. now apply (reg_conj D RD).
  - intros f I J. apply (reg_unique D RD).
Qed.
Lemma turned_body a b g D f I : turned a b g D f I = D (fun x y z => let '(x', y', z') := euler a b g (x, y, z) in f x' y' z') I.
Proof. reflexivity. Qed.
Lemma regular_eulerD a b g D : regular D -> regular (turned a b g D).
Proof.
  intros RD. constructor; unfold turned; cbn [zrot yrot].
  - intros f f' I E. apply (reg_ext D RD). intros. apply E.
  - intros. now apply (reg_scal D RD).
  - intros. now apply (reg_plus D RD).
  - intros. now apply (reg_conj D RD).
  - intros f I J. apply (reg_unique D RD).
Qed.
Lemma regular_together D1 D2 : regular D1 -> regular D2 -> regular (together D1 D2).
Proof.
  intros R1 R2. constructor; unfold together.
  - intros f g I E (I1 & I2 & H1 & H2 & ->). exists I1, I2. split; [now apply (reg_ext D1 R1 f)|]. split; [now apply (reg_ext D2 R2 f)|reflexivity].
  - intros c f I (I1 & I2 & H1 & H2 & ->). exists (c * I1), (c * I2). split; [now apply (reg_scal D1 R1)|]. split; [now apply (reg_scal D2 R2)|ring].
  - intros f g I J (I1 & I2 & H1 & H2 & ->) (J1 & J2 & K1 & K2 & ->). exists (I1 + J1), (I2 + J2).
    split; [now apply (reg_plus D1 R1)|]. split; [now apply (reg_plus D2 R2)|ring].
  - intros f I (I1 & I2 & H1 & H2 & ->). exists (Cconj I1), (Cconj I2). split; [now apply (reg_conj D1 R1)|]. split; [now apply (reg_conj D2 R2)|now rewrite Cconj_plus].
  - intros f I J (I1 & I2 & H1 & H2 & ->) (J1 & J2 & K1 & K2 & ->).
    now rewrite (reg_unique D1 R1 f I1 J1 H1 K1), (reg_unique D2 R2 f I2 J2 H2 K2).
Qed.
Lemma regular_dense rho B : regular B -> regular (dense rho B).
Proof.
  intros RB. constructor; unfold dense.
  - intros f g I E (J & H & ->). exists J. split; [now apply (reg_ext B RB f)|reflexivity].
  - intros c f I (J & H & ->). exists (c * J). split; [now apply (reg_scal B RB)|ring].
  - intros f g I J (I1 & H1 & ->) (J1 & K1 & ->). exists (I1 + J1). split; [now apply (reg_plus B RB)|ring].
  - intros f I (J & H & ->). exists (Cconj J). split; [now apply (reg_conj B RB)|]. now rewrite Cconj_mult, Cconj_RtoC.
  - intros f I J (I1 & H1 & ->) (J1 & K1 & ->). now rewrite (reg_unique B RB f I1 J1 H1 K1).
Qed.
Lemma lsum_plus (f g : pt -> C) P : lsum (fun p => f p + g p) P = lsum f P + lsum g P.
Proof. induction P as [|p P IH]; cbn [lsum]; [ring|]. rewrite IH. ring. Qed.
Lemma lsum_conj (f : pt -> C) P : Cconj (lsum f P) = lsum (fun p => Cconj (f p)) P.
Proof. induction P as [|p P IH]; cbn [lsum]; [now rewrite Cconj_RtoC|]. now rewrite Cconj_plus, IH. Qed.
Lemma regular_points P : regular (point_masses P).
Proof.
  constructor; unfold point_masses.
  - intros f g I E ->. apply lsum_ext. intros [m [[x y] z]] _. cbn. now rewrite E.
  - intros c f I ->. rewrite <- lsum_scal. apply lsum_ext. intros [m [[x y] z]] _. cbn. ring.
  - intros f g I J -> ->. rewrite <- lsum_plus. apply lsum_ext. intros [m [[x y] z]] _. cbn. ring.
  - intros f I ->. rewrite lsum_conj. apply lsum_ext. intros [m [[x y] z]] _. cbn. now rewrite Cconj_mult, Cconj_RtoC.
  - intros f I J -> ->. reflexivity.
Qed.

(* ---- translation and rotation of the moments of any mass distribution ---- *)
Definition has_moments (L : Z) (D : body) (q : marr) : Prop :=
  forall l m, (0 <= l <= L)%Z -> (Z.abs m <= l)%Z -> D (fun x y z => rsolid l m (x, y, z)) (mom q l m).
Lemma hat_moment D q L l m : regular D -> has_moments L D q -> (0 <= l <= L)%Z -> (Z.abs m <= l)%Z ->
  D (fun x y z => S_ l m (x, y, z)) (hq q l m).
Proof.
  intros RD H Hl Hm. unfold hq. rewrite (proj2 (Z.leb_le _ _)) by lia.
  apply (reg_val _ _ (/ RtoC (nrm l m) * mom q l m)); [unfold Cdiv; ring|].
  apply (reg_ext D RD (fun x y z => / RtoC (nrm l m) * rsolid l m (x, y, z))).
  - intros x y z. rewrite rsolid_S. field. apply nrmC_neq0. lia.
  - apply (reg_scal D RD). now apply H.
Qed.
Lemma body_0 D f I : regular D -> D f I -> D (fun _ _ _ => 0) 0.
Proof.
  intros RD H. apply (reg_val _ _ (0 * I)); [ring|]. apply (reg_ext D RD (fun x y z => 0 * f x y z)); [intros; ring|].
  now apply (reg_scal D RD).
Qed.

Lemma translate_body L D q t : regular D -> (0 <= L <= deg q)%Z -> reality q -> corners0 q -> has_moments L D q ->
  has_moments L (shifted t D) (translate_qlm q t).
Proof.
  intros RD HL Hr Hc H L' M HL' HM. destruct (translate_qlm_holds q t ltac:(lia) Hr Hc) as [E [H1 _]].
  rewrite H1 by lia. unfold shifted. set (N := deg q) in *.
  apply (reg_ext D RD (fun x y z => RtoC (nrm L' M) * zsum 0 (L' + 1) (fun l => zsum (- l) (l + 1) (fun m => S_ (L' - l) (M - m) t * S_ l m (x, y, z))))).
  { intros x y z. assert (E1 := rsolid_S L' M (vadd (x, y, z) t)). destruct (vadd (x, y, z) t) as [[x' y'] z'] eqn:Ev. rewrite E1, <- Ev.
    rewrite (S_add_wide (x, y, z) t 0 (L' + 1) (- L') (L' + 1)) by lia. f_equal. apply zsum_ext. intros l Hl.
    rewrite (zsum_sub (- L') (L' + 1) (- l) (l + 1)) by (lia || (intros k K1 K2; rewrite S_zero by lia; ring)).
    apply zsum_ext. intros. ring. }
  apply (reg_scal D RD).
  assert (ET : Tin N (hq q) t L' M = zsum 0 (L' + 1) (fun l => zsum (- l) (l + 1) (fun m => S_ (L' - l) (M - m) t * hq q l m))).
  { unfold Tin. rewrite (zsum_sub 0 (N + 1) 0 (L' + 1)) by (lia || (intros k K1 K2; apply zsum_0; intros; rewrite S_neg by lia; ring)).
    apply zsum_ext. intros l Hl.
    apply zsum_sub; try lia. intros k K1 K2; rewrite supp_hq by lia; ring. }
  rewrite ET. apply (reg_zsum D 0 (L' + 1) (fun l x y z => zsum (- l) (l + 1) (fun m => S_ (L' - l) (M - m) t * S_ l m (x, y, z)))); [assumption|lia|].
  intros l Hl. apply (reg_zsum D (- l) (l + 1) (fun m x y z => S_ (L' - l) (M - m) t * S_ l m (x, y, z))); [assumption|lia|].
  intros m Hm. apply (reg_scal D RD). apply (hat_moment D q L); [assumption|assumption|lia|lia].
Qed.
Lemma rotate_body L D q a b g q' : regular D -> (0 <= L <= deg q)%Z -> has_moments L D q -> rotate_qlm q a b g = Ok q' ->
  has_moments L (turned a b g D) q'.
Proof.
  intros RD HL H E l m Hl Hm. destruct (rotate_qlm_mom q a b g ltac:(lia)) as (q2 & E2 & _ & H1 & _). rewrite E in E2. injection E2 as <-.
  rewrite H1 by lia. unfold turned.
  apply (reg_ext D RD (fun x y z => zsum (- l) (l + 1) (fun k => DD a b g l m k * rsolid l k (x, y, z)))).
  { intros x y z. rewrite <- rsolid_euler by lia. unfold euler. now destruct (zrot a (yrot b (zrot g (x, y, z)))) as [[? ?] ?]. }
  unfold act. apply (reg_zsum D (- l) (l + 1) (fun k x y z => DD a b g l m k * rsolid l k (x, y, z))); [assumption|lia|].
  intros k Hk. apply (reg_scal D RD). apply H; lia.
Qed.

(* ---- first moments ---- *)
Definition first_moments (D : body) (m : R) (c : vec) : Prop :=
  let '(cx, cy, cz) := c in
  D (fun x _ _ => RtoC x) (RtoC (m * cx)) /\ D (fun _ y _ => RtoC y) (RtoC (m * cy)) /\ D (fun _ _ z => RtoC z) (RtoC (m * cz)).
Lemma lin3 D m c a1 a2 a3 : regular D -> first_moments D m c ->
  D (fun x y z => RtoC (a1 * x + a2 * y + a3 * z)) (RtoC (m * (let '(x, y, z) := c in a1 * x + a2 * y + a3 * z))).
Proof.
  destruct c as [[cx cy] cz]. intros RD (H1 & H2 & H3).
  apply (reg_val _ _ (RtoC a1 * RtoC (m * cx) + RtoC a2 * RtoC (m * cy) + RtoC a3 * RtoC (m * cz))).
  { rewrite <- !RtoC_mult, <- !RtoC_plus. f_equal. ring. }
  apply (reg_ext D RD (fun x y z => (RtoC a1 * RtoC x + RtoC a2 * RtoC y) + RtoC a3 * RtoC z)).
  { intros. now rewrite <- !RtoC_mult, <- !RtoC_plus. }
  apply (reg_plus D RD); [apply (reg_plus D RD)|]; now apply (reg_scal D RD).
Qed.
Lemma shifted_com D m c t : regular D -> D (fun _ _ _ => 1) (RtoC m) -> first_moments D m c -> first_moments (shifted t D) m (vadd c t).
Proof.
  destruct c as [[cx cy] cz], t as [[a b] d]. intros RD H0 (H1 & H2 & H3). unfold shifted. cbn [vadd first_moments].
  assert (G : forall f s e, D (fun x y z => RtoC (f x y z)) (RtoC (m * s)) -> D (fun x y z => RtoC (f x y z + e)) (RtoC (m * (s + e)))).
  { intros f s e Hf. apply (reg_val _ _ (RtoC (m * s) + RtoC e * RtoC m)); [rewrite <- RtoC_mult, <- RtoC_plus; f_equal; ring|].
    apply (reg_ext D RD (fun x y z => RtoC (f x y z) + RtoC e * 1)); [intros; rewrite <- RtoC_mult, <- RtoC_plus; f_equal; ring|].
    apply (reg_plus D RD); [exact Hf|now apply (reg_scal D RD)]. }
  split; [apply (G (fun x _ _ => x)); exact H1|]. split; [apply (G (fun _ y _ => y)); exact H2|apply (G (fun _ _ z => z)); exact H3].
Qed.
Lemma turned_com D m c a b g : regular D -> first_moments D m c -> first_moments (turned a b g D) m (euler a b g c).
Proof.
  destruct c as [[cx cy] cz]. intros RD H. unfold turned, euler. cbn [zrot yrot first_moments].
  split; [|split].
  - assert (G := lin3 D m (cx, cy, cz) (cos a * cos b * cos g - sin a * sin g) (- cos a * cos b * sin g - sin a * cos g) (cos a * sin b) RD H).
    cbn beta iota in G. eapply reg_val; [|eapply (reg_ext D RD); [|exact G]].
    + f_equal. ring.
    + intros. cbn beta. f_equal. ring.
  - assert (G := lin3 D m (cx, cy, cz) (sin a * cos b * cos g + cos a * sin g) (- sin a * cos b * sin g + cos a * cos g) (sin a * sin b) RD H).
    cbn beta iota in G. eapply reg_val; [|eapply (reg_ext D RD); [|exact G]].
    + f_equal. ring.
    + intros. cbn beta. f_equal. ring.
  - assert (G := lin3 D m (cx, cy, cz) (- sin b * cos g) (sin b * sin g) (cos b) RD H).
    cbn beta iota in G. eapply reg_val; [|eapply (reg_ext D RD); [|exact G]].
    + f_equal. ring.
    + intros. cbn beta. f_equal. ring.
Qed.
Lemma axis_z_zrot t v : axis_rot (0, 0, 1)%R t v = zrot t v.
Proof. destruct v as [[x y] z]. now rewrite axis_rot_z. Qed.
Lemma axis_y_yrot t v : axis_rot (0, 1, 0)%R t v = yrot t v.
Proof. destruct v as [[x y] z]. now rewrite axis_rot_y. Qed.
Lemma com_rotated m c a b g :
  row_pos (rot_row (rot_row (rot_row (Ok (Row (mkpt m c))) g (0, 0, 1)%R) b (0, 1, 0)%R) a (0, 0, 1)%R) = Ok (euler a b g c).
Proof.
  unfold rot_row. cbn [bind]. rewrite rotate_array_spec by (intros E; injection E; lra). cbn [bind pp pm].
  rewrite rotate_array_spec by (intros E; injection E; lra). cbn [bind pp pm].
  rewrite rotate_array_spec by (intros E; injection E; lra). cbn [bind pp pm row_pos].
  now rewrite !axis_z_zrot, axis_y_yrot.
Qed.

(* ---- the methods ---- *)
Lemma rotate_describes k s a b g : regular (k_body k) -> describes k s -> s_mesh s <> None ->
  exists s', shape_rotate s a b g = (s', None) /\ describes (on_body (turned a b g) k) s' /\ s_mesh s' <> None.
Proof.
  destruct k as [D L cm]. unfold on_body. cbn [k_body k_deg k_com].
  intros RD [Hi Hd (q & Eq & Dq & Rq & Cq & Hq) Hm Hc] Hme. destruct s as [inn lm qs cs ms me]. cbn [k_body k_deg k_com s_inner s_lmax s_qlm s_com s_mass s_mesh] in *.
  destruct me as [me|]; [|easy]. destruct (rotate_qlm_mom q a b g ltac:(lia)) as (q' & E & D1 & _).
  eexists. split; [reflexivity|]. split; [|easy].
  split; unfold shape_rotate, rotate_mesh, set_com, set_mesh, set_qlm; cbn [k_body k_deg k_com s_inner s_lmax s_qlm s_com s_mass s_mesh].
  - exact Hi.
  - exact Hd.
  - exists q'. subst qs. cbn [bind]. split; [exact E|]. split; [congruence|].
    destruct (C11_rotated_arrays q a b g q' ltac:(lia) Rq Cq E) as [R' C']. split; [exact R'|]. split; [exact C'|].
    apply (rotate_body L D q a b g q'); [assumption|lia|exact Hq|exact E].
  - unfold turned. cbn [zrot yrot]. exact Hm.
  - intros cx cy cz Ecm Ec. destruct cs as [c|e]; [|discriminate Ec]. cbn [bind] in Ec. rewrite com_rotated in Ec. injection Ec as Ec.
    assert (G := turned_com D ms c a b g RD). rewrite Ec in G. apply G. destruct c as [[x y] z]. now apply Hc.
Qed.
Lemma translate_describes k s t : regular (k_body k) -> describes k s -> s_mesh s <> None ->
  exists s', shape_translate s t true = (s', None) /\ describes (on_body (shifted t) k) s' /\ s_mesh s' <> None.
Proof.
  destruct k as [D L cm]. unfold on_body. cbn [k_body k_deg k_com].
  intros RD [Hi Hd (q & Eq & Dq & Rq & Cq & Hq) Hm Hc] Hme. destruct s as [inn lm qs cs ms me]. cbn [k_body k_deg k_com s_inner s_lmax s_qlm s_com s_mass s_mesh] in *.
  destruct me as [me|]; [|easy]. subst inn qs.
  eexists. split; [reflexivity|]. split; [|easy].
  split; unfold set_com, set_mesh, set_qlm; cbn [k_body k_deg k_com s_inner s_lmax s_qlm s_com s_mass s_mesh].
  - reflexivity.
  - exact Hd.
  - exists (translate_qlm q t). split; [reflexivity|]. destruct (translate_qlm_holds q t ltac:(lia) Rq Cq) as [E _]. split; [congruence|].
    destruct (translate_reality q t ltac:(lia) Rq Cq) as [R' C']. split; [exact R'|]. split; [exact C'|].
    apply (translate_body L D q t); (assumption || lia).
  - destruct t as [[a b] c]. exact Hm.
  - intros cx cy cz Ecm Ec. destruct cs as [c|e]; [|discriminate Ec]. cbn [bind] in Ec. injection Ec as Ec.
    assert (G := shifted_com D ms c t RD Hm). rewrite Ec in G. apply G. destruct c as [[x y] z]. now apply Hc.
Qed.
(* the running sums of add, over the shapes seen so far *)
Definition sofar (lmax : Z) (D : body) (L : Z) (cm : bool) (q : res (option marr)) (c : res vec) (m : R) : Prop :=
  regular D /\ (0 <= L <= lmax)%Z /\
  (exists t, q = Ok (Some t) /\ deg t = lmax /\ reality t /\ corners0 t /\ has_moments L D t) /\
  D (fun _ _ _ => 1) (RtoC m) /\
  (forall cx cy cz, cm = true -> c = Ok (cx, cy, cz) -> D (fun x _ _ => RtoC x) (RtoC cx) /\ D (fun _ y _ => RtoC y) (RtoC cy) /\ D (fun _ _ z => RtoC z) (RtoC cz)).
Definition good (x : known) (s : shape) : Prop := regular (k_body x) /\ describes x s.
Lemma mom_emb L q lmax : (0 <= deg q <= lmax)%Z -> reality q -> corners0 q -> exists q', to_lmax lmax (mkshape true (deg q) (Ok q) L 0 None) = Ok (EArr q') /\
  deg q' = lmax /\ reality q' /\ corners0 q' /\ forall l m, (0 <= l <= deg q)%Z -> (Z.abs m <= l)%Z -> mom q' l m = mom q l m.
Proof.
  intros Hd Hr Hc. unfold to_lmax. cbn [s_lmax s_qlm bind]. destruct (Z.eqb_spec (deg q) lmax) as [E|E].
  - exists q. repeat (split; [easy|]). intros; reflexivity.
  - destruct (C34_embed q lmax ltac:(lia) ltac:(lia)) as (q' & E' & D' & H'). exists q'. rewrite E'. split; [reflexivity|]. split; [exact D'|].
    destruct (C34_embed_keeps_symmetry q lmax q' ltac:(lia) ltac:(lia) E') as [K1 K2]. split; [auto|]. split; [auto|].
    intros l m Hl Hm. rewrite H' by lia. rewrite (proj2 (Z.leb_le l (deg q))), (proj2 (Z.leb_le (Z.abs m) (deg q))) by lia. reflexivity.
Qed.
Lemma to_lmax_good x s lmax : good x s -> (s_lmax s <= lmax)%Z -> exists q', to_lmax lmax s = Ok (EArr q') /\
  deg q' = lmax /\ reality q' /\ corners0 q' /\ has_moments (k_deg x) (k_body x) q'.
Proof.
  intros [RD [Hi Hd (q & Eq & Dq & Rq & Cq & Hq) Hm Hc]] Hl. destruct (mom_emb (Ok v0) q lmax ltac:(lia) Rq Cq) as (q' & E & D & R' & C' & H).
  exists q'. split; [|split; [exact D|split; [exact R'|split; [exact C'|]]]].
  - rewrite <- E. unfold to_lmax. cbn [s_lmax s_qlm]. now rewrite Eq, Dq.
  - intros l m Hll Hmm. rewrite H by lia. now apply Hq.
Qed.
Lemma sofar_first x s lmax : good x s -> (s_lmax s <= lmax)%Z ->
  sofar lmax (k_body x) (k_deg x) (k_com x) (qlm_step lmax (Ok None) s) (com_step (Ok v0) s) (0 + s_mass s).
Proof.
  intros G Hl. destruct (to_lmax_good x s lmax G Hl) as (q' & E & D & R' & C' & H). destruct G as [RD [Hi Hd Hq Hm Hc]].
  split; [exact RD|]. split; [lia|]. split; [|split].
  - exists q'. split; [unfold qlm_step; cbn [bind]; rewrite E; reflexivity|]. now repeat (split; [assumption|]).
  - rewrite Rplus_0_l. exact Hm.
  - intros cx cy cz Ecm Ec. unfold com_step in Ec. cbn [bind] in Ec. destruct (s_com s) as [[[x0 y0] z0]|e] eqn:Es; [|discriminate Ec].
    cbn in Ec. injection Ec as <- <- <-. rewrite !Rplus_0_l. now apply Hc.
Qed.
Lemma sofar_next lmax D L cm q c m x s : sofar lmax D L cm q c m -> good x s -> (s_lmax s <= lmax)%Z ->
  sofar lmax (k_body (merge (mkknown D L cm) x)) (k_deg (merge (mkknown D L cm) x)) (k_com (merge (mkknown D L cm) x)) (qlm_step lmax q s) (com_step c s) (m + s_mass s).
Proof.
  intros (RD & HL & (t & Eq & Dt & Rt & Ct & Ht) & Hm & Hc) G Hl.
  destruct (to_lmax_good x s lmax G Hl) as (q' & E & D' & R' & C' & H'). destruct G as [RD' [Hi Hd _ Hm' Hc']]. cbn [merge k_body k_deg k_com].
  split; [now apply regular_together|]. split; [lia|]. split; [|split].
  - eexists. unfold qlm_step. subst q. cbn [bind]. rewrite E. cbn [bind acc_add]. rewrite (proj2 (Z.eqb_eq (deg t) (deg q'))) by congruence.
    split; [reflexivity|]. split; [exact Dt|]. split; [|split].
    + intros l k Hlk Hk. cbn [deg] in *. unfold mom. cbn [deg at_]. assert (E1 := Rt l k Hlk Hk). assert (E2 := R' l k ltac:(lia) ltac:(lia)).
      unfold mom in E1, E2. rewrite D', <- Dt in E2. rewrite E1, E2. rewrite Cconj_plus. ring.
    + intros l k Hlk Hk. cbn [deg] in *. unfold mom. cbn [deg at_]. assert (E1 := Ct l k Hlk Hk). assert (E2 := C' l k ltac:(lia) ltac:(lia)).
      unfold mom in E1, E2. rewrite D', <- Dt in E2. rewrite E1, E2. ring.
    + intros l k Hlk Hk. exists (mom t l k), (mom q' l k). split; [apply Ht; lia|]. split; [apply H'; lia|].
      unfold mom. cbn [deg at_]. now rewrite D', <- Dt.
  - exists (RtoC m), (RtoC (s_mass s)). split; [exact Hm|]. split; [exact Hm'|]. now rewrite RtoC_plus.
  - intros cx cy cz Ecm Ec. unfold com_step in Ec. destruct c as [[[c1 c2] c3]|e]; [|discriminate Ec]. cbn [bind] in Ec.
    destruct (s_com s) as [[[x0 y0] z0]|e] eqn:Es; [|discriminate Ec].
    cbn in Ec. injection Ec as <- <- <-. apply andb_prop in Ecm. destruct Ecm as [Ec1 Ec2]. destruct (Hc _ _ _ Ec1 eq_refl) as (A1 & A2 & A3). destruct (Hc' _ _ _ Ec2 eq_refl) as (B1 & B2 & B3).
    split; [|split]; eexists _, _; (split; [eassumption|]); (split; [eassumption|]); now rewrite RtoC_plus.
Qed.
Lemma sofar_all lmax xs ss D L cm q c m : sofar lmax D L cm q c m -> Forall2 good xs ss -> (forall s, In s ss -> (s_lmax s <= lmax)%Z) ->
  let r := fold_left merge xs (mkknown D L cm) in
  sofar lmax (k_body r) (k_deg r) (k_com r) (fold_left (qlm_step lmax) ss q) (fold_left com_step ss c) (fold_left (fun m x => (m + s_mass x)%R) ss m).
Proof.
  intros H F. revert D L cm q c m H. induction F as [|x s xs ss Hx F IH]; intros D L cm q c m H Hl; [exact H|].
  cbn [fold_left]. destruct (merge (mkknown D L cm) x) as [D' L' cm'] eqn:E.
  assert (G := sofar_next lmax D L cm q c m x s H Hx (Hl s (or_introl eq_refl))). rewrite E in G. cbn [k_body k_deg k_com] in G.
  apply IH; [exact G|]. intros. apply Hl. now right.
Qed.
Lemma maxl_ge l s : In s l -> (s_lmax s <= maxl l)%Z.
Proof.
  unfold maxl. generalize (match l with [] => 0%Z | s :: _ => s_lmax s end). induction l as [|a l IH]; intros b []; cbn [fold_right].
  - subst. lia.
  - specialize (IH b H). lia.
Qed.
Lemma sum_mesh_some ms : ms <> [] -> (forall m, In m ms -> m <> None) -> exists m, sum_mesh ms = Ok m.
Proof.
  destruct ms as [|m0 r]; [easy|]. intros _ H. unfold sum_mesh.
  destruct m0 as [m0|]; [|now destruct (H None (or_introl eq_refl))].
  assert (H' : forall m, In m r -> m <> None) by (intros; apply H; now right). clear H. revert m0. induction r as [|m r IH]; intros m0.
  - cbn. now eexists.
  - cbn [fold_left]. destruct m as [m|]; [|now destruct (H' None (or_introl eq_refl))]. cbn [sum_step bind].
    apply IH. intros. apply H'. now right.
Qed.
Lemma all_shapes_some l : all_shapes (map Some l) = Some l.
Proof. induction l as [|a l IH]; [reflexivity|]. cbn. now rewrite IH. Qed.
Lemma add_list_describes x s xs ss : good x s -> Forall2 good xs ss -> s_mesh s <> None -> (forall s', In s' ss -> s_mesh s' <> None) ->
  exists s', shape_add s (ArgList (map Some ss)) = (s', None) /\ good (fold_left merge xs x) s' /\ s_mesh s' <> None.
Proof.
  intros G F Hs Hss. unfold shape_add. rewrite all_shapes_some. cbv zeta. set (lmax := maxl (s :: ss)).
  assert (Hi : forallb s_inner (s :: ss) = true).
  { apply forallb_forall. intros a [<-|Ha]; [apply G|]. clear -F Ha. induction F; [easy|]. destruct Ha as [<-|Ha]; [apply H|now apply IHF]. }
  rewrite Hi. cbn [orb].
  assert (K := sofar_all lmax xs ss (k_body x) (k_deg x) (k_com x) (qlm_step lmax (Ok None) s) (com_step (Ok v0) s) (0 + s_mass s)
     (sofar_first x s lmax G (maxl_ge (s :: ss) s (or_introl eq_refl))) F (fun a Ha => maxl_ge (s :: ss) a (or_intror Ha))).
  cbn [fold_left]. destruct x as [D0 L0 cm0]. cbn [k_body k_deg k_com] in K. cbv zeta in K. revert K.
  set (r := fold_left merge xs (mkknown D0 L0 cm0)). generalize (fold_left (qlm_step lmax) ss (qlm_step lmax (Ok None) s)).
  generalize (fold_left com_step ss (com_step (Ok v0) s)). generalize (fold_left (fun m x => (m + s_mass x)%R) ss (0 + s_mass s)%R).
  intros mt ct qt (RD & HL & (t & Eq & Dt & Rt & Ct & Ht) & Hm & Hc). subst qt. cbn [bind].
  destruct (sum_mesh_some (map s_mesh (s :: ss))) as (me & Em); [easy| |].
  { intros m Hin. apply in_map_iff in Hin. destruct Hin as (a & <- & [<-|Ha]); [exact Hs|now apply Hss]. }
  rewrite Em. eexists. split; [reflexivity|]. split; [|easy]. split; [exact RD|].
  split; unfold set_mesh; cbn [k_body k_deg k_com s_inner s_lmax s_qlm s_com s_mass s_mesh].
  - apply G.
  - exact HL.
  - exists t. split; [reflexivity|]. split; [exact Dt|]. split; [exact Rt|]. split; [exact Ct|exact Ht].
  - exact Hm.
  - intros cx cy cz Ecm Ec. unfold com_div in Ec. destruct ct as [[[c1 c2] c3]|e]; [|discriminate Ec]. cbn [bind] in Ec.
    destruct (Req_EM_T mt 0) as [E0|E0]; [rewrite TranslationsProofs.is0_true in Ec by assumption; discriminate Ec|].
    rewrite TranslationsProofs.is0_false in Ec by assumption. cbn in Ec. injection Ec as <- <- <-.
    destruct (Hc _ _ _ Ecm eq_refl) as (A1 & A2 & A3).
    replace (mt * (/ mt * c1))%R with c1 by (field; assumption). replace (mt * (/ mt * c2))%R with c2 by (field; assumption).
    replace (mt * (/ mt * c3))%R with c3 by (field; assumption). now split; [|split].
Qed.
Lemma add_shape_list s s' : shape_add s (ArgShape s') = shape_add s (ArgList (map Some (s' :: nil))).
Proof. reflexivity. Qed.
(* what add never changes *)
Lemma add_inner s arg : s_inner (fst (shape_add s arg)) = s_inner s.
Proof.
  unfold shape_add. destruct (match arg with ArgShape s' => _ | ArgList l => _ | ArgOther => _ end); [|reflexivity]. cbv zeta.
  destruct (_ || _)%bool; [|reflexivity].
  destruct (fold_left (qlm_step (maxl a)) a (Ok None)) as [?|[]]; try reflexivity; destruct (sum_mesh _); reflexivity.
Qed.
