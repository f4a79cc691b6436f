(* C11 and C49 for the numerically integrated shapes (qlmNum.py, bigQlmNum.py) *)
From Coq Require Import Classical.
From Verif Require Import NumSpec NumExist NumExist2 Props_Qlm Props_Num QlmProofs Props_Read3 Shapes Props_Shapes2.
From Verif Require Import Cplx.
Open Scope C_scope.

(* ---- C11: reality of every numerically integrated array, for any quadrature whatever its accuracy ---- *)
Inductive num_call (tpl : integrator) (L : Z) : res marr -> Prop :=
| nc_cyl dens phih IR OR h1 h2 : num_call tpl L (num_cyl_mom tpl L dens phih IR OR h1 h2)
| nc_cone dens phih IR OR H : num_call tpl L (num_cone_mom tpl L dens phih IR OR H)
| nc_trap dens phih IR OR h1 h2 : num_call tpl L (num_trap_mom tpl L dens phih IR OR h1 h2)
| nc_steinmetz dens r Rad : num_call tpl L (num_steinmetz tpl L dens r Rad)
| nc_platehole dens t r theta : num_call tpl L (num_platehole tpl L dens t r theta)
| nc_annulus dens h1 h2 IR OR phih : num_call tpl L (bignum_annulus tpl L dens h1 h2 IR OR phih)
| nc_outer_cone dens H IR OR phih : num_call tpl L (bignum_cone tpl L dens H IR OR phih)
| nc_trapezoid dens h1 h2 IR OR phih : num_call tpl L (bignum_trapezoid tpl L dens h1 h2 IR OR phih).
Lemma num_finish_sym L dens quad : (0 <= L)%Z -> sym L (num_finish L dens quad).
Proof.
  intros HL. unfold num_finish. assert (HF := half_fill L (fun l m => RtoC dens * RtoC (quad l m)) HL).
  assert (D : deg (fill 0 (L + 1) L (fun l m => RtoC dens * RtoC (quad l m)) (zeros L)) = L) by (apply deg_fill; lia).
  split; [now rewrite deg_reflect|]. apply (reflect_reality _ _ HF).
Qed.
Theorem C11_numerical_moments_reality : forall tpl L r q, (0 <= L)%Z -> num_call tpl L r -> r = Ok q ->
  deg q = L /\ reality q /\ corners0 q.
Proof.
  intros tpl L r q HL C E. destruct C; unfold num_cyl_mom, num_cone_mom, num_trap_mom, num_steinmetz, num_platehole, bignum_annulus, bignum_cone, bignum_trapezoid in E;
  repeat match type of E with
  | (if ?b then _ else _) = _ => destruct b; try discriminate E
  end; cbv zeta in E; apply Ok_inj in E; subst q; now apply num_finish_sym.
Qed.
(* geometry files read with the code's own steinmetz: no assumption left *)
Theorem C11_any_geometry_file_numerical : forall tpl fs L filename filepath q,
  ReadMulti.read_mpc (num_steinmetz tpl) fs L filename filepath = Ok q -> deg q = L /\ reality q /\ corners0 q.
Proof.
  intros tpl fs L fn fp q E. destruct (Z.ltb_spec L 0).
  - exfalso. unfold ReadMulti.read_mpc in E. destruct (ReadMulti.open_ fs _ fn fp) as [lines|]; cbn [bind] in E; [|discriminate].
    destruct (PyStr.item lines 0); cbn [bind] in E; [|discriminate]. rewrite (proj2 (Z.ltb_lt L 0)) in E by lia. discriminate.
  - eapply C11_any_geometry_file; [|exact E]. intros dens r Rad q0 E0.
    apply (C11_numerical_moments_reality tpl L (num_steinmetz tpl L dens r Rad)); [lia|constructor|exact E0].
Qed.
Print Assumptions C11_any_geometry_file_numerical.

(* ---- volumes ---- *)
Lemma cart_vol_pos (p : R) (s : R -> R) (lo hi : R -> R -> R) (v : C) : (0 < p)%R -> (forall x, - p < x < p -> 0 < s x)%R ->
  (forall x y : R, continuous (fun y => (hi x y - lo x y)%R) y) -> (forall x y, (- p < x < p)%R -> (- s x < y < s x)%R -> (lo x y < hi x y)%R) ->
  (forall x : R, continuous (fun x => RInt (fun y => (hi x y - lo x y)%R) (- s x) (s x)) x) ->
  cartB p s lo hi (fun _ _ _ => 1) v -> exists V : R, v = RtoC V /\ (0 < V)%R.
Proof.
  intros Hp Hs Cg Hg Ch (g & h & H1 & H2 & H3).
  assert (G : forall x y, g x y = RtoC (hi x y - lo x y)).
  { intros x y. eapply is_CInt_unique; [apply H1|]. eapply is_CInt_val; [|apply is_CInt_const]. ring. }
  set (hh := fun x => RInt (fun y => (hi x y - lo x y)%R) (- s x) (s x)).
  assert (HH : forall x, h x = RtoC (hh x)).
  { intros x. eapply is_CInt_unique; [apply H2|]. apply (is_CInt_ext (fun y => RtoC (hi x y - lo x y))); [intros; now rewrite G|].
    apply is_CInt_real. apply (RInt_correct (V := R_CompleteNormedModule)). apply ex_RInt_continuous. intros; apply Cg. }
  exists (RInt hh (- p) p). split.
  - eapply is_CInt_unique; [exact H3|]. apply (is_CInt_ext (fun x => RtoC (hh x))); [intros; now rewrite HH|].
    apply is_CInt_real. apply (RInt_correct (V := R_CompleteNormedModule)). apply ex_RInt_continuous. intros; apply Ch.
  - apply RInt_gt_0; [lra| |intros; apply Ch]. intros x Hx. unfold hh. apply RInt_gt_0; [specialize (Hs x Hx); lra| |intros; apply Cg].
    intros y Hy. specialize (Hg x y Hx Hy). lra.
Qed.
Lemma bounds_cont (w lo hi : R -> R) (t : R) : (forall r : R, continuous w r) -> continuous lo t -> continuous hi t ->
  continuous (fun t => RInt w (lo t) (hi t)) t.
Proof.
  intros Hw Hl Hh. apply (cont_bounds w (Rmin (lo t) (hi t) - 1)%R); auto.
  - assert (G := Rmin_l (lo t) (hi t)). lra.
  - assert (G := Rmin_r (lo t) (hi t)). lra.
Qed.
Lemma drilled_volume r Rad v : (0 < r <= Rad)%R -> drilled_core r Rad (fun _ _ _ => 1) v -> exists V : R, v = RtoC V /\ (0 < V)%R.
Proof.
  intros Hr. apply (cart_vol_pos r (fun x => sqrt (r ^ 2 - x ^ 2)) (fun _ y => (- sqrt (Rad ^ 2 - y ^ 2))%R) (fun _ y => sqrt (Rad ^ 2 - y ^ 2))).
  - lra.
  - intros x Hx. apply sqrt_lt_R0. nra.
  - intros x y. apply cont_minus; [apply half_chord_cont|apply cont_opp, half_chord_cont].
  - intros x y Hx Hy. assert (0 < sqrt (Rad ^ 2 - y ^ 2))%R; [|lra]. apply sqrt_lt_R0.
    assert (S0 := sqrt_pos (r ^ 2 - x ^ 2)). assert (S1 : (sqrt (r ^ 2 - x ^ 2) * sqrt (r ^ 2 - x ^ 2) = r ^ 2 - x ^ 2)%R) by (apply sqrt_sqrt; nra). nra.
  - intros x. apply (bounds_cont (fun y => (sqrt (Rad ^ 2 - y ^ 2) - - sqrt (Rad ^ 2 - y ^ 2))%R)).
    + intros y. apply cont_minus; [apply half_chord_cont|apply cont_opp, half_chord_cont].
    + apply cont_opp, half_chord_cont.
    + apply half_chord_cont.
Qed.
Lemma oblique_volume t r th v : (0 < r)%R -> (0 < t)%R -> (0 < cos th)%R -> oblique_core t r th (fun _ _ _ => 1) v -> exists V : R, v = RtoC V /\ (0 < V)%R.
Proof.
  intros Hr Ht Hc. assert (K : (0 < t / cos th)%R) by (apply Rdiv_lt_0_compat; assumption).
  apply (cart_vol_pos r (fun x => sqrt (r ^ 2 - x ^ 2)) (fun x _ => (x * tan th - t / cos th / 2)%R) (fun x _ => (x * tan th + t / cos th / 2)%R)).
  - lra.
  - intros x Hx. apply sqrt_lt_R0. nra.
  - intros x y. apply cst_cont.
  - intros x y _ _. lra.
  - intros x. apply (continuous_ext (fun x => RInt (fun _ => (t / cos th)%R) (- sqrt (r ^ 2 - x ^ 2)) (sqrt (r ^ 2 - x ^ 2)))).
    + intros y. apply RInt_ext. intros z _. match goal with |- @eq _ ?x ?y => change (@eq R x y) end. set (a := (t / cos th)%R); clearbody a; field.
    + apply bounds_cont; [intros; apply cst_cont|apply cont_opp, half_chord_cont|apply half_chord_cont].
Qed.

(* ---- C49: the stored moments of Cylhole and Platehole are 4 pi times those of the body of the given mass ---- *)
Lemma Cmod_le0 (z : C) : (Cmod z <= Rabs 1 * 0)%R -> z = 0.
Proof. intros H. apply Cmod_eq_0. assert (G := Cmod_ge_0 z). rewrite Rmult_0_r in H. lra. Qed.
Lemma renormed_body (B : body) mass q V : regular B -> (0 <= deg q)%Z -> approx_inner 0 q 1 B -> B (fun _ _ _ => 1) (RtoC V) -> (0 < V)%R ->
  exists q', renorm mass q = Ok q' /\ deg q' = deg q /\ moments_of_body q' (4 * PI * mass) B.
Proof.
  intros RB HL (HM & HR & HC) HV V0. assert (Hp := PI_RGT_0). assert (Hs : (0 < sqrt (4 * PI))%R) by (apply sqrt_lt_R0; lra).
  assert (Hss : (sqrt (4 * PI) * sqrt (4 * PI) = 4 * PI)%R) by (apply sqrt_sqrt; lra).
  assert (HM' : forall l m, (0 <= l <= deg q)%Z -> (Z.abs m <= l)%Z -> exists I, B (fun x y z => rsolid l m (x, y, z)) I /\ mom q l m = I).
  { intros l m Hl Hm. destruct (HM l m Hl Hm) as (I & HI & EI). exists I. split; [exact HI|]. apply Cmod_le0 in EI.
    replace (mom q l m) with (mom q l m - RtoC 1 * I + I) by ring. rewrite EI. ring. }
  assert (Q0 : at_ q 0 (deg q) = RtoC (V / sqrt (4 * PI))).
  { destruct (HM' 0 0)%Z as (I & HI & EI); [lia|lia|]. unfold mom in EI. rewrite Z.add_0_r in EI. rewrite EI.
    apply (reg_unique _ RB (fun x y z => rsolid 0 0 (x, y, z))); [exact HI|].
    eapply reg_val; [|eapply reg_ext; [exact RB| |exact (reg_scal _ RB (RtoC (/ sqrt (4 * PI))) _ _ HV)]].
    - rewrite <- RtoC_mult. f_equal. field. lra.
    - intros x y z. unfold rsolid. rewrite solid_00. f_equal. f_equal. unfold nrm.
      change (0 + 0)%Z with 0%Z. change (0 - 0)%Z with 0%Z. rewrite zfact_0. symmetry. replace ((2 * 0 + 1) * 1 * 1 / (4 * PI))%R with (/ (4 * PI))%R by (field; lra). rewrite sqrt_inv. reflexivity. }
  assert (R0 : Re (at_ q 0 (deg q)) = (V / sqrt (4 * PI))%R) by (rewrite Q0; reflexivity).
  unfold renorm. rewrite R0. assert (N0 : (0 < V / sqrt (4 * PI))%R) by (apply Rdiv_lt_0_compat; lra).
  rewrite TranslationsProofs.is0_false by lra. eexists. split; [reflexivity|]. split; [reflexivity|].
  exists V. split; [lra|]. split; [exact HV|]. split.
  - cbn [deg]. intros l m Hl Hm. destruct (HM' l m Hl Hm) as (I & HI & EI). exists I. split; [exact HI|].
    unfold mom in *. cbn [deg at_]. rewrite EI, Cmult_comm. f_equal. apply f_equal. clear - Hs Hss V0. set (s := sqrt (4 * PI)) in *. clearbody s. rewrite <- Hss. field. lra.
  - intros l m Hl Hm. unfold mom. cbn [deg at_]. cbn [deg] in Hl, Hm. assert (K := HC l m Hl Hm). unfold mom in K. rewrite K. ring.
Qed.
Theorem C49_cylhole_moments : forall tpl L mass r Rad, accurate 0 tpl -> (0 <= L)%Z -> (0 < r <= Rad)%R ->
  exists s q, Cylhole (num_steinmetz tpl) L true mass r Rad = Ok s /\ s_qlm s = Ok q /\ deg q = L /\
    moments_of_body q (4 * PI * mass) (drilled_core r Rad).
Proof.
  intros tpl L mass r Rad HA HL HR. destruct (C50_steinmetz 0 tpl L 1 r Rad HA HL) as [_ G]. destruct G as (q & E & D & A); [lra|].
  assert (RB : regular (drilled_core r Rad)) by apply (regular_cartB r (fun x => sqrt (r ^ 2 - x ^ 2)) (fun _ y => (- sqrt (Rad ^ 2 - y ^ 2))%R) (fun _ y => sqrt (Rad ^ 2 - y ^ 2))).
  assert (EV : exists v, drilled_core r Rad (fun _ _ _ => 1) v).
  { destruct A as (A & _). destruct (A 0 0)%Z as (I & HI & _); [lia|lia|]. exists (RtoC (/ nrm 0 0) * I).
    eapply reg_ext; [exact RB| |exact (reg_scal _ RB _ _ _ HI)]. intros x y z. unfold rsolid. rewrite solid_00.
    rewrite Cmult_1_r, <- RtoC_mult. f_equal. field. apply nrm_neq0. lia. }
  destruct EV as (v & HV). destruct (drilled_volume r Rad v HR HV) as (V & -> & V0).
  destruct (renormed_body _ mass q V RB ltac:(lia) A HV V0) as (q' & E' & D' & M).
  exists (mkshape true L (Ok q') (Ok v0) mass (Some (GenCad.cad_cylhole (posm mass) r Rad))), q'.
  split; [|split; [reflexivity|split; [lia|exact M]]]. unfold Cylhole, prim. rewrite E. cbn [bind]. rewrite E'. reflexivity.
Qed.
Theorem C49_platehole_moments : forall tpl L mass t r theta, accurate 0 tpl -> (0 <= L)%Z -> (0 < r)%R -> (0 < t)%R -> (- (PI / 2) < theta < PI / 2)%R ->
  exists s q, Platehole (num_platehole tpl) L true mass t r theta = Ok s /\ s_qlm s = Ok q /\ deg q = L /\
    moments_of_body q (4 * PI * mass) (oblique_core t r theta).
Proof.
  intros tpl L mass t r theta HA HL HR HT Hth. assert (Hc : (0 < cos theta)%R) by (apply cos_gt_0; lra).
  destruct (C50_platehole 0 tpl L 1 t r theta HA HL) as (_ & _ & G). destruct G as (q & E & D & A); [lra|lra|].
  assert (RB : regular (oblique_core t r theta)) by apply (regular_cartB r (fun x => sqrt (r ^ 2 - x ^ 2)) (fun x _ => (x * tan theta - t / cos theta / 2)%R) (fun x _ => (x * tan theta + t / cos theta / 2)%R)).
  assert (EV : exists v, oblique_core t r theta (fun _ _ _ => 1) v).
  { destruct A as (A & _). destruct (A 0 0)%Z as (I & HI & _); [lia|lia|]. exists (RtoC (/ nrm 0 0) * I).
    eapply reg_ext; [exact RB| |exact (reg_scal _ RB _ _ _ HI)]. intros x y z. unfold rsolid. rewrite solid_00.
    rewrite Cmult_1_r, <- RtoC_mult. f_equal. field. apply nrm_neq0. lia. }
  destruct EV as (v & HV). destruct (oblique_volume t r theta v HR HT Hc HV) as (V & -> & V0).
  destruct (renormed_body _ mass q V RB ltac:(lia) A HV V0) as (q' & E' & D' & M).
  exists (mkshape true L (Ok q') (Ok v0) mass (Some (GenCad.cad_platehole (posm mass) t r theta))), q'.
  split; [|split; [reflexivity|split; [lia|exact M]]]. unfold Platehole, prim. rewrite E. cbn [bind]. rewrite E'. reflexivity.
Qed.
(* the accuracy hypothesis is met by exact iterated integration *)
Example C49_exact_case : exists s q, Cylhole (num_steinmetz exact_tpl) 2 true 3 1 2 = Ok s /\ s_qlm s = Ok q /\ deg q = 2%Z /\
  moments_of_body q (4 * PI * 3) (drilled_core 1 2).
Proof. apply C49_cylhole_moments; [apply exact_accurate; lra|lia|lra]. Qed.
Print Assumptions C49_cylhole_moments.
