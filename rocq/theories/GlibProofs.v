(* Proofs about Glib.v *)
From Verif Require Export GlibSpec.
From Coq Require Import Permutation Psatz.
Import ListNotations.
Open Scope R_scope.

Arguments vadd : simpl never.
Arguments vsub : simpl never.
Arguments vscal : simpl never.
Arguments vopp : simpl never.
Arguments vcross : simpl never.
Arguments vdot : simpl never.
Arguments v0 : simpl never.

Ltac vdes := repeat match goal with v : vec |- _ => destruct v as [[? ?] ?] end.
Ltac vsplit := apply f_equal2; [apply f_equal2|].
Ltac vring := intros; vdes; unfold vadd, vsub, vscal, vopp, vcross, v0; vsplit; ring.

Lemma vadd_comm a b : vadd a b = vadd b a. Proof. vring. Qed.
Lemma vadd_assoc a b c : vadd a (vadd b c) = vadd (vadd a b) c. Proof. vring. Qed.
Lemma vadd_0_l a : vadd v0 a = a. Proof. vring. Qed.
Lemma vadd_0_r a : vadd a v0 = a. Proof. vring. Qed.
Lemma vcross_add_r a b c : vcross a (vadd b c) = vadd (vcross a b) (vcross a c). Proof. vring. Qed.
Lemma vcross_add_l a b c : vcross (vadd a b) c = vadd (vcross a c) (vcross b c). Proof. vring. Qed.
Lemma vcross_0_r a : vcross a v0 = v0. Proof. vring. Qed.
Lemma vopp_add a b : vopp (vadd a b) = vadd (vopp a) (vopp b). Proof. vring. Qed.
Lemma vopp_opp a : vopp (vopp a) = a. Proof. vring. Qed.
Lemma vopp_0 : vopp v0 = v0. Proof. vring. Qed.
Lemma vadd4 a b c d : vadd (vadd a b) (vadd c d) = vadd (vadd a c) (vadd b d). Proof. vring. Qed.

Lemma is0_true x : is0 x = true <-> x = 0.
Proof. unfold is0. destruct (Req_EM_T x 0); split; congruence. Qed.
Lemma is0_false x : is0 x = false <-> x <> 0.
Proof. unfold is0. destruct (Req_EM_T x 0); split; congruence. Qed.

(* sums of vectors over a list *)
Definition vS {A} (f : A -> vec) (l : list A) : vec := fold_right (fun x acc => vadd (f x) acc) v0 l.
Lemma vS_app {A} f (l1 l2 : list A) : vS f (l1 ++ l2) = vadd (vS f l1) (vS f l2).
Proof. induction l1; simpl; [now rewrite vadd_0_l|]. now rewrite IHl1, vadd_assoc. Qed.
Lemma vS_ext {A} f g (l : list A) : (forall x, In x l -> f x = g x) -> vS f l = vS g l.
Proof. induction l; simpl; intros H; [reflexivity|]. rewrite IHl, H; auto. Qed.
Lemma vS_add {A} f g (l : list A) : vS (fun x => vadd (f x) (g x)) l = vadd (vS f l) (vS g l).
Proof. induction l; simpl; [now rewrite vadd_0_l|]. rewrite IHl. apply vadd4. Qed.
Lemma vS_opp {A} f (l : list A) : vS (fun x => vopp (f x)) l = vopp (vS f l).
Proof. induction l; simpl; [now rewrite vopp_0|]. now rewrite IHl, vopp_add. Qed.
Lemma vS_0 {A} (l : list A) : vS (fun _ => v0) l = v0.
Proof. induction l; simpl; [reflexivity|]. now rewrite IHl, vadd_0_l. Qed.
Lemma vS_swap {A B} (f : A -> B -> vec) l1 l2 :
  vS (fun x => vS (fun y => f x y) l2) l1 = vS (fun y => vS (fun x => f x y) l1) l2.
Proof. induction l1; simpl; [now rewrite vS_0|]. now rewrite IHl1, vS_add. Qed.
Lemma vS_perm {A} f (l1 l2 : list A) : Permutation l1 l2 -> vS f l1 = vS f l2.
Proof.
  induction 1; simpl; try congruence.
  rewrite !vadd_assoc. f_equal. apply vadd_comm.
Qed.
Lemma vS_map {A B} (h : A -> B) f (l : list A) : vS f (map h l) = vS (fun x => f (h x)) l.
Proof. induction l; simpl; [reflexivity|now rewrite IHl]. Qed.
Lemma vS_cross_l {A} c f (l : list A) : vcross c (vS f l) = vS (fun x => vcross c (f x)) l.
Proof. induction l; simpl; [apply vcross_0_r|]. now rewrite vcross_add_r, IHl. Qed.

(* ---- generic pair force ---------------------------------------------- *)
Definition dist (p q : pt) : R := vnorm (vsub (pp q) (pp p)).

Lemma sqrt3_0 a b c : sqrt (a ^ 2 + b ^ 2 + c ^ 2) = 0 -> a = 0 /\ b = 0 /\ c = 0.
Proof.
  intros E. assert (Ha := pow2_ge_0 a). assert (Hb := pow2_ge_0 b). assert (Hc := pow2_ge_0 c).
  apply sqrt_eq_0 in E; [|lra].
  repeat split; apply Rsqr_0_uniq; unfold Rsqr; nra.
Qed.
Lemma vnorm_pos_iff v : vnorm v <> 0 <-> v <> v0.
Proof.
  destruct v as [[x y] z]. unfold vnorm, v0. split.
  - intros H E. injection E; intros -> -> ->. apply H.
    replace (0 ^ 2 + 0 ^ 2 + 0 ^ 2) with 0 by ring. apply sqrt_0.
  - intros H E. apply sqrt3_0 in E. destruct E as (-> & -> & ->). now apply H.
Qed.
Lemma vsub_0_iff a b : vsub a b = v0 <-> a = b.
Proof.
  destruct a as [[a1 a2] a3], b as [[b1 b2] b3]. unfold vsub, v0. split.
  - intros H; injection H; intros; vsplit; lra.
  - intros H; injection H; intros; subst. vsplit; ring.
Qed.
Lemma dist_neq0 p q : dist p q <> 0 <-> apart p q.
Proof.
  unfold dist, apart. rewrite vnorm_pos_iff. 
  split; intros H E; apply H; [apply vsub_0_iff; auto|symmetry; now apply vsub_0_iff].
Qed.
Section Generic.
  Variable w : R -> R -> R -> R.          (* weight m1 m2 r *)
  Variable ok : bool.                     (* extra finiteness condition *)
  Hypothesis w_sym : forall m1 m2 r, w m1 m2 r = w m2 m1 r.
  Definition pf (p q : pt) : vec := vscal (w (pm p) (pm q) (dist p q)) (vsub (pp q) (pp p)).
  Lemma dist_sym p q : dist p q = dist q p.
  Proof.
    unfold dist. destruct (pp p) as [[a b] c], (pp q) as [[a' b'] c']. unfold vsub, vnorm.
    f_equal. ring.
  Qed.
  Lemma pf_anti p q : pf q p = vopp (pf p q).
  Proof.
    unfold pf. rewrite (dist_sym q p), (w_sym (pm q)). generalize (w (pm p) (pm q) (dist p q)).
    generalize (pp p) (pp q). vring.
  Qed.
  Lemma pf_central p q : vadd (vcross (pp p) (pf p q)) (vcross (pp q) (pf q p)) = v0.
  Proof.
    rewrite pf_anti. unfold pf. generalize (w (pm p) (pm q) (dist p q)).
    generalize (pp p) (pp q). vring.
  Qed.
  Definition totF (l1 l2 : list pt) : vec := vS (fun p => vS (fun q => pf p q) l2) l1.
  Definition totT (l1 l2 : list pt) : vec := vS (fun p => vcross (pp p) (vS (fun q => pf p q) l2)) l1.
  Lemma totF_anti l1 l2 : totF l2 l1 = vopp (totF l1 l2).
  Proof.
    unfold totF. rewrite <- vS_opp. rewrite vS_swap. apply vS_ext. intros p _.
    rewrite <- vS_opp. apply vS_ext. intros q _. apply pf_anti.
  Qed.
  Lemma totT_alt l1 l2 : totT l1 l2 = vS (fun p => vS (fun q => vcross (pp p) (pf p q)) l2) l1.
  Proof. unfold totT. apply vS_ext. intros. apply vS_cross_l. Qed.
  Lemma totT_anti l1 l2 : totT l2 l1 = vopp (totT l1 l2).
  Proof.
    rewrite !totT_alt. rewrite vS_swap, <- vS_opp. apply vS_ext. intros p _.
    rewrite <- vS_opp. apply vS_ext. intros q _.
    assert (H := pf_central p q). revert H. generalize (vcross (pp p) (pf p q)) (vcross (pp q) (pf q p)).
    intros [[a b] c] [[a' b'] c']. unfold vadd, v0, vopp. intros E. injection E; intros. vsplit; lra.
  Qed.
  (* translation *)
  Lemma pf_transl t p q : pf (translate_pt p t) (translate_pt q t) = pf p q.
  Proof.
    unfold pf, dist, translate_pt. cbn [pm pp].
    replace (vsub (vadd (pp q) t) (vadd (pp p) t)) with (vsub (pp q) (pp p)); [reflexivity|].
    generalize (pp p) (pp q). vring.
  Qed.
  Lemma totF_transl t l1 l2 :
    totF (map (fun p => translate_pt p t) l1) (map (fun p => translate_pt p t) l2) = totF l1 l2.
  Proof.
    unfold totF. rewrite vS_map. apply vS_ext. intros p _. rewrite vS_map. apply vS_ext.
    intros q _. apply pf_transl.
  Qed.
  Lemma totT_transl t l1 l2 :
    totT (map (fun p => translate_pt p t) l1) (map (fun p => translate_pt p t) l2)
    = vadd (totT l1 l2) (vcross t (totF l1 l2)).
  Proof.
    unfold totT, totF. rewrite vS_map, vS_cross_l, <- vS_add. apply vS_ext. intros p _.
    rewrite vS_map. rewrite (vS_ext _ (fun q => pf p q)) by (intros; apply pf_transl).
    unfold translate_pt; cbn [pp]. now rewrite vcross_add_l.
  Qed.
End Generic.

(* ---- the model computes the generic totals ---------------------------- *)
Definition wG (m1 m2 r : R) : R := BIG_G * m1 * m2 / r ^ 3.
Definition wY (alpha lmbd m1 m2 r : R) : R := yuk_weight (alpha * BIG_G * m1) m2 r lmbd.
Lemma wG_sym m1 m2 r : wG m1 m2 r = wG m2 m1 r.
Proof. unfold wG, Rdiv. ring. Qed.
Lemma wY_sym a lm m1 m2 r : wY a lm m1 m2 r = wY a lm m2 m1 r.
Proof. unfold wY, yuk_weight, Rdiv. ring. Qed.


Lemma gmmr2_many p l : gmmr2_array p (Rows l) =
  if existsb (fun q => is0 (dist p q)) l then Err NotFinite else Ok (vS (pf wG p) l).
Proof.
  unfold gmmr2_array.
  assert (E : forall l, existsb is0 (map vnorm (map (fun p2 => vsub (pp p2) (pp p)) l))
              = existsb (fun q => is0 (dist p q)) l).
  { induction l0; simpl; [reflexivity|now rewrite IHl0]. }
  rewrite E. destruct (existsb _ l); [reflexivity|]. f_equal.
  clear E. unfold vsum. induction l as [|q l IHl]; [reflexivity|]. cbn [map combine fold_right vS fst snd]. rewrite IHl. reflexivity.
Qed.
Lemma yukawa_many p l alpha lmbd : yukawa_array p (Rows l) alpha lmbd =
  if existsb (fun q => is0 (dist p q) || is0 lmbd)%bool l then Err NotFinite
  else Ok (vS (pf (wY alpha lmbd) p) l).
Proof.
  unfold yukawa_array.
  assert (E : forall l, existsb (fun r => is0 r || is0 lmbd)%bool (map vnorm (map (fun p2 => vsub (pp p2) (pp p)) l))
              = existsb (fun q => is0 (dist p q) || is0 lmbd)%bool l).
  { induction l0; simpl; [reflexivity|now rewrite IHl0]. }
  rewrite E. destruct (existsb _ l); [reflexivity|]. f_equal.
  clear E. unfold vsum. induction l as [|q l IHl]; [reflexivity|]. cbn [map combine fold_right vS fst snd]. rewrite IHl. reflexivity.
Qed.
Lemma gmmr2_rows p a : gmmr2_array p a = gmmr2_array p (Rows (rows a)).
Proof.
  destruct a as [q|l]; [|reflexivity]. cbn [rows]. rewrite gmmr2_many. cbn [existsb].
  rewrite orb_false_r. unfold gmmr2_array. fold (dist p q). destruct (is0 (dist p q)); [reflexivity|].
  cbn [vS fold_right]. now rewrite vadd_0_r.
Qed.
Lemma yukawa_rows p a alpha lmbd : yukawa_array p a alpha lmbd = yukawa_array p (Rows (rows a)) alpha lmbd.
Proof.
  destruct a as [q|l]; [|reflexivity]. cbn [rows]. rewrite yukawa_many. cbn [existsb].
  rewrite orb_false_r. unfold yukawa_array. fold (dist p q). destruct (is0 (dist p q) || is0 lmbd)%bool; [reflexivity|].
  cbn [vS fold_right]. now rewrite vadd_0_r.
Qed.

Lemma loop_force_spec w (bad : pt -> bool) l2 (f : pt -> res vec) :
  (forall p, f p = if bad p then Err NotFinite else Ok (vS (pf w p) l2)) ->
  forall l1 acc, loop_force f l1 acc =
    if existsb bad l1 then Err NotFinite
    else Ok (vadd (fst acc) (totF w l1 l2), vadd (snd acc) (totT w l1 l2)).
Proof.
  intros Hf. induction l1 as [|p l1 IH]; intros [F T].
  - simpl. unfold totF, totT; simpl. now rewrite !vadd_0_r.
  - cbn [loop_force existsb]. rewrite Hf. destruct (bad p); [reflexivity|].
    cbn [bind orb fst snd]. rewrite IH. destruct (existsb bad l1); [reflexivity|].
    cbn [fst snd]. unfold totF, totT. cbn [vS fold_right]. now rewrite !vadd_assoc.
Qed.

Definition coincide (l1 l2 : list pt) : bool := existsb (fun p => existsb (fun q => is0 (dist p q)) l2) l1.
Lemma coincide_true l1 l2 : coincide l1 l2 = true <-> exists p q, In p l1 /\ In q l2 /\ pp p = pp q.
Proof.
  unfold coincide. rewrite existsb_exists. split.
  - intros [p [Hp H]]. apply existsb_exists in H. destruct H as [q [Hq H]]. apply is0_true in H.
    exists p, q. repeat split; auto.
    destruct (pp p) as [[a b] c] eqn:E1, (pp q) as [[a' b'] c'] eqn:E2.
    unfold dist in H. rewrite E1, E2 in H. unfold vsub, vnorm in H. apply sqrt3_0 in H.
    vsplit; lra.
  - intros (p & q & Hp & Hq & E). exists p. split; auto. apply existsb_exists. exists q. split; auto.
    apply is0_true. unfold dist. rewrite E. destruct (pp q) as [[a b] c]. unfold vsub, vnorm.
    replace ((a - a) ^ 2 + (b - b) ^ 2 + (c - c) ^ 2) with 0 by ring. apply sqrt_0.
Qed.
Lemma coincide_false l1 l2 : coincide l1 l2 = false <-> apart_all l1 l2.
Proof.
  split.
  - intros H p q Hp Hq E. assert (coincide l1 l2 = true) by (apply coincide_true; eauto). congruence.
  - intros H. destruct (coincide l1 l2) eqn:E; [|reflexivity]. apply coincide_true in E.
    destruct E as (p & q & Hp & Hq & E). destruct (H p q Hp Hq E).
Qed.
Lemma coincide_sym l1 l2 : coincide l1 l2 = coincide l2 l1.
Proof.
  destruct (coincide l2 l1) eqn:E.
  - apply coincide_true in E. apply coincide_true. destruct E as (p & q & ? & ? & ?). eauto.
  - apply coincide_false in E. apply coincide_false. intros p q Hp Hq H. apply (E q p Hq Hp). auto.
Qed.

Lemma gravity_spec a b : point_matrix_gravity a b =
  if coincide (rows a) (rows b) then Err NotFinite
  else Ok (totF wG (rows a) (rows b), totT wG (rows a) (rows b)).
Proof.
  destruct a as [p|l1]; unfold point_matrix_gravity.
  - rewrite gmmr2_rows, gmmr2_many. unfold coincide. cbn [rows existsb]. rewrite orb_false_r.
    destruct (existsb _ (rows b)); [reflexivity|]. cbn [bind]. unfold totF, totT. cbn [vS fold_right].
    now rewrite !vadd_0_r.
  - rewrite (loop_force_spec wG (fun p => existsb (fun q => is0 (dist p q)) (rows b)) (rows b)).
    + cbn [rows fst snd]. rewrite !vadd_0_l. reflexivity.
    + intros p. now rewrite gmmr2_rows, gmmr2_many.
Qed.
Definition coincideY (lmbd : R) (l1 l2 : list pt) : bool :=
  existsb (fun p => existsb (fun q => is0 (dist p q) || is0 lmbd)%bool l2) l1.
Lemma coincideY_nz lmbd l1 l2 : lmbd <> 0 -> coincideY lmbd l1 l2 = coincide l1 l2.
Proof.
  intros H. apply is0_false in H. unfold coincideY, coincide.
  induction l1; simpl; [reflexivity|]. rewrite IHl1. f_equal. clear IHl1.
  induction l2; simpl; [reflexivity|]. rewrite IHl2, H, orb_false_r; reflexivity.
Qed.
Lemma yukawa_spec a b alpha lmbd : point_matrix_yukawa a b alpha lmbd =
  if coincideY lmbd (rows a) (rows b) then Err NotFinite
  else Ok (totF (wY alpha lmbd) (rows a) (rows b), totT (wY alpha lmbd) (rows a) (rows b)).
Proof.
  destruct a as [p|l1]; unfold point_matrix_yukawa.
  - rewrite yukawa_rows, yukawa_many. unfold coincideY. cbn [rows existsb]. rewrite orb_false_r.
    destruct (existsb _ (rows b)); [reflexivity|]. cbn [bind]. unfold totF, totT. cbn [vS fold_right].
    now rewrite !vadd_0_r.
  - rewrite (loop_force_spec (wY alpha lmbd) (fun p => existsb (fun q => is0 (dist p q) || is0 lmbd)%bool (rows b)) (rows b)).
    + cbn [rows fst snd]. rewrite !vadd_0_l. reflexivity.
    + intros p. now rewrite yukawa_rows, yukawa_many.
Qed.

(* ---- theorems ---------------------------------------------------------- *)
Lemma gravity_third_law a b : apart_all (rows a) (rows b) ->
  exists F T, point_matrix_gravity a b = Ok (F, T) /\ point_matrix_gravity b a = Ok (vopp F, vopp T).
Proof.
  intros H. rewrite !gravity_spec. rewrite (coincide_sym (rows b)). apply coincide_false in H. rewrite H.
  eexists _, _. split; [reflexivity|]. do 2 f_equal; [apply totF_anti|apply totT_anti]; apply wG_sym.
Qed.
Lemma yukawa_third_law a b alpha lmbd : lmbd <> 0 -> apart_all (rows a) (rows b) ->
  exists F T, point_matrix_yukawa a b alpha lmbd = Ok (F, T) /\ point_matrix_yukawa b a alpha lmbd = Ok (vopp F, vopp T).
Proof.
  intros Hl H. rewrite !yukawa_spec, !coincideY_nz by assumption.
  rewrite (coincide_sym (rows b)). apply coincide_false in H. rewrite H.
  eexists _, _. split; [reflexivity|]. do 2 f_equal; [apply totF_anti|apply totT_anti]; apply wY_sym.
Qed.

Lemma totF_app_l w l1 l1' l2 : totF w (l1 ++ l1') l2 = vadd (totF w l1 l2) (totF w l1' l2).
Proof. apply vS_app. Qed.
Lemma totT_app_l w l1 l1' l2 : totT w (l1 ++ l1') l2 = vadd (totT w l1 l2) (totT w l1' l2).
Proof. apply vS_app. Qed.
Lemma totF_app_r w l1 l2 l2' : totF w l1 (l2 ++ l2') = vadd (totF w l1 l2) (totF w l1 l2').
Proof. unfold totF. rewrite <- vS_add. apply vS_ext. intros. apply vS_app. Qed.
Lemma totT_app_r w l1 l2 l2' : totT w l1 (l2 ++ l2') = vadd (totT w l1 l2) (totT w l1 l2').
Proof. unfold totT. rewrite <- vS_add. apply vS_ext. intros. now rewrite vS_app, vcross_add_r. Qed.
Lemma totF_perm w l1 l1' l2 l2' : Permutation l1 l1' -> Permutation l2 l2' -> totF w l1 l2 = totF w l1' l2'.
Proof. intros H1 H2. unfold totF. rewrite (vS_perm _ _ _ H1). apply vS_ext. intros. now apply vS_perm. Qed.
Lemma totT_perm w l1 l1' l2 l2' : Permutation l1 l1' -> Permutation l2 l2' -> totT w l1 l2 = totT w l1' l2'.
Proof. intros H1 H2. unfold totT. rewrite (vS_perm _ _ _ H1). apply vS_ext. intros. f_equal. now apply vS_perm. Qed.
Lemma coincide_app_l l1 l1' l2 : coincide (l1 ++ l1') l2 = (coincide l1 l2 || coincide l1' l2)%bool.
Proof. apply existsb_app. Qed.
Lemma coincide_app_r l1 l2 l2' : coincide l1 (l2 ++ l2') = (coincide l1 l2 || coincide l1 l2')%bool.
Proof. rewrite coincide_sym, coincide_app_l, !(coincide_sym l1). reflexivity. Qed.
Lemma coincide_perm l1 l1' l2 l2' : Permutation l1 l1' -> Permutation l2 l2' -> coincide l1 l2 = coincide l1' l2'.
Proof.
  intros H1 H2. destruct (coincide l1' l2') eqn:E.
  - apply coincide_true in E. destruct E as (p & q & Hp & Hq & E). apply coincide_true.
    exists p, q. split; [|split]; auto.
    + apply Permutation_sym in H1. eapply Permutation_in; eauto.
    + apply Permutation_sym in H2. eapply Permutation_in; eauto.
  - apply coincide_false in E. apply coincide_false. intros p q Hp Hq.
    apply E; eapply Permutation_in; eauto.
Qed.

Lemma gravity_superpose_targets l1 l1' b :
  point_matrix_gravity (Rows (l1 ++ l1')) b = radd (point_matrix_gravity (Rows l1) b) (point_matrix_gravity (Rows l1') b).
Proof.
  rewrite !gravity_spec. cbn [rows]. rewrite coincide_app_l.
  destruct (coincide l1 (rows b)); [reflexivity|]. destruct (coincide l1' (rows b)); [reflexivity|].
  cbn. now rewrite totF_app_l, totT_app_l.
Qed.
Lemma gravity_superpose_sources a l2 l2' :
  point_matrix_gravity a (Rows (l2 ++ l2')) = radd (point_matrix_gravity a (Rows l2)) (point_matrix_gravity a (Rows l2')).
Proof.
  rewrite !gravity_spec. cbn [rows]. rewrite coincide_app_r.
  destruct (coincide (rows a) l2); [reflexivity|]. destruct (coincide (rows a) l2'); [reflexivity|].
  cbn. now rewrite totF_app_r, totT_app_r.
Qed.
Lemma gravity_perm l1 l1' l2 l2' : Permutation l1 l1' -> Permutation l2 l2' ->
  point_matrix_gravity (Rows l1) (Rows l2) = point_matrix_gravity (Rows l1') (Rows l2').
Proof.
  intros H1 H2. rewrite !gravity_spec. cbn [rows].
  now rewrite (coincide_perm _ _ _ _ H1 H2), (totF_perm _ _ _ _ _ H1 H2), (totT_perm _ _ _ _ _ H1 H2).
Qed.
Lemma yukawa_superpose_targets l1 l1' b alpha lmbd : lmbd <> 0 ->
  point_matrix_yukawa (Rows (l1 ++ l1')) b alpha lmbd
  = radd (point_matrix_yukawa (Rows l1) b alpha lmbd) (point_matrix_yukawa (Rows l1') b alpha lmbd).
Proof.
  intros Hl. rewrite !yukawa_spec, !coincideY_nz by assumption. cbn [rows]. rewrite coincide_app_l.
  destruct (coincide l1 (rows b)); [reflexivity|]. destruct (coincide l1' (rows b)); [reflexivity|].
  cbn. now rewrite totF_app_l, totT_app_l.
Qed.
Lemma yukawa_superpose_sources a l2 l2' alpha lmbd : lmbd <> 0 ->
  point_matrix_yukawa a (Rows (l2 ++ l2')) alpha lmbd
  = radd (point_matrix_yukawa a (Rows l2) alpha lmbd) (point_matrix_yukawa a (Rows l2') alpha lmbd).
Proof.
  intros Hl. rewrite !yukawa_spec, !coincideY_nz by assumption. cbn [rows]. rewrite coincide_app_r.
  destruct (coincide (rows a) l2); [reflexivity|]. destruct (coincide (rows a) l2'); [reflexivity|].
  cbn. now rewrite totF_app_r, totT_app_r.
Qed.
Lemma yukawa_perm l1 l1' l2 l2' alpha lmbd : lmbd <> 0 -> Permutation l1 l1' -> Permutation l2 l2' ->
  point_matrix_yukawa (Rows l1) (Rows l2) alpha lmbd = point_matrix_yukawa (Rows l1') (Rows l2') alpha lmbd.
Proof.
  intros Hl H1 H2. rewrite !yukawa_spec, !coincideY_nz by assumption. cbn [rows].
  now rewrite (coincide_perm _ _ _ _ H1 H2), (totF_perm _ _ _ _ _ H1 H2), (totT_perm _ _ _ _ _ H1 H2).
Qed.
(* 1-D input = one-row input *)
Lemma gravity_rows a b : point_matrix_gravity a b = point_matrix_gravity (Rows (rows a)) (Rows (rows b)).
Proof. now rewrite !gravity_spec. Qed.
Lemma yukawa_rows2 a b alpha lmbd :
  point_matrix_yukawa a b alpha lmbd = point_matrix_yukawa (Rows (rows a)) (Rows (rows b)) alpha lmbd.
Proof. now rewrite !yukawa_spec. Qed.
(* finite iff no coincidence *)
Lemma gravity_finite_iff a b :
  (exists F T, point_matrix_gravity a b = Ok (F, T)) <-> apart_all (rows a) (rows b).
Proof.
  rewrite gravity_spec. rewrite <- coincide_false. destruct (coincide (rows a) (rows b)).
  - split; [intros (F & T & H)|]; discriminate.
  - split; [reflexivity|eauto].
Qed.

(* ---- rigid motions ------------------------------------------------------ *)
Lemma rows_translate a t : rows (translate_point_array a t) = map (fun p => translate_pt p t) (rows a).
Proof. destruct a; reflexivity. Qed.
Lemma coincide_inj (f : pt -> pt) l1 l2 :
  (forall p q, pp (f p) = pp (f q) <-> pp p = pp q) -> coincide (map f l1) (map f l2) = coincide l1 l2.
Proof.
  intros Hf. destruct (coincide l1 l2) eqn:E.
  - apply coincide_true in E. destruct E as (p & q & Hp & Hq & E). apply coincide_true.
    exists (f p), (f q). split; [|split]; try apply in_map; auto. now apply Hf.
  - apply coincide_false in E. apply coincide_false. intros p q Hp Hq.
    apply in_map_iff in Hp, Hq. destruct Hp as (p0 & <- & Hp), Hq as (q0 & <- & Hq).
    intros H. apply (proj1 (Hf _ _)) in H. exact (E _ _ Hp Hq H).
Qed.
Lemma translate_pt_inj t p q : pp (translate_pt p t) = pp (translate_pt q t) <-> pp p = pp q.
Proof.
  unfold translate_pt; cbn [pp]. split; [|now intros ->].
  destruct (pp p) as [[a b] c], (pp q) as [[a' b'] c'], t as [[t1 t2] t3]. unfold vadd.
  intros H; injection H; intros; vsplit; lra.
Qed.
Lemma gravity_translate a b t F T :
  point_matrix_gravity a b = Ok (F, T) ->
  point_matrix_gravity (translate_point_array a t) (translate_point_array b t) = Ok (F, vadd T (vcross t F)).
Proof.
  rewrite !gravity_spec, !rows_translate, coincide_inj by apply translate_pt_inj.
  destruct (coincide (rows a) (rows b)); [discriminate|].
  intros E; injection E; intros <- <-. now rewrite totF_transl, totT_transl.
Qed.
Lemma yukawa_translate a b t alpha lmbd F T : lmbd <> 0 ->
  point_matrix_yukawa a b alpha lmbd = Ok (F, T) ->
  point_matrix_yukawa (translate_point_array a t) (translate_point_array b t) alpha lmbd = Ok (F, vadd T (vcross t F)).
Proof.
  intros Hl. rewrite !yukawa_spec, !coincideY_nz, !rows_translate, coincide_inj by (assumption || apply translate_pt_inj).
  destruct (coincide (rows a) (rows b)); [discriminate|].
  intros E; injection E; intros <- <-. now rewrite totF_transl, totT_transl.
Qed.
(* translate_point_array *)
Lemma translate_zero a : translate_point_array a v0 = a.
Proof.
  assert (H : forall p, translate_pt p v0 = p) by (intros [m v]; unfold translate_pt; cbn; now rewrite vadd_0_r).
  destruct a as [p|l]; cbn; [now rewrite H|]. f_equal. rewrite <- (map_id l) at 2. apply map_ext. exact H.
Qed.
Lemma translate_compose a s t :
  translate_point_array (translate_point_array a s) t = translate_point_array a (vadd s t).
Proof.
  assert (H : forall p, translate_pt (translate_pt p s) t = translate_pt p (vadd s t))
    by (intros [m v]; unfold translate_pt; cbn; now rewrite vadd_assoc).
  destruct a as [p|l]; cbn; [now rewrite H|]. f_equal. rewrite map_map. now apply map_ext.
Qed.
Lemma translate_pointwise l t i p : nth_error l i = Some p ->
  exists q, nth_error (rows (translate_point_array (Rows l) t)) i = Some q /\ pm q = pm p /\ pp q = vadd (pp p) t.
Proof.
  intros H. cbn. exists (translate_pt p t). rewrite (map_nth_error _ _ _ H). auto.
Qed.
