(* Existence of the outer integrals of bigQlmNum. *)
From Verif Require Export NumExist.
From Verif Require Import Pg2MultiProofs Props_BigQlm2.
From Verif Require Import Cplx.
Open Scope R_scope.

Lemma aR_hom l m r z : (0 <= m <= l)%Z -> r <> 0 -> aR l m r z = r ^ Z.to_nat l * aR l m 1 (z / r).
Proof.
  intros Hm Hr. unfold aR.
  assert (E : solid l m r 0 z = (RtoC (r ^ Z.to_nat l) * solid l m 1 0 (z / r))%C).
  { rewrite <- cpow_RtoC. unfold solid. rewrite <- tri_scal by lia.
    assert (G : forall A A' B B' Z0 Z1 : C, A = A' -> Z0 = Z1 -> B = B' -> tri l m A Z0 B = tri l m A' Z1 B') by (intros; subst; reflexivity).
    apply G; apply C_eq; cbn; field; assumption. }
  rewrite E. destruct (solid l m 1 0 (z / r)). cbn. ring.
Qed.
Lemma ex_derive_zsum (a b : Z) (f : Z -> R -> R) (z : R) : (forall k, (a <= k < b)%Z -> ex_derive (f k) z) ->
  ex_derive (fun z => Re (zsum a b (fun k => RtoC (f k z)))) z.
Proof.
  intros H. unfold zsum. assert (K : forall n, (Z.of_nat n <= Z.max 0 (b - a))%Z -> ex_derive (fun z => Re (nsum n (fun i => RtoC (f (a + Z.of_nat i)%Z z)))) z).
  { induction n as [|n IH]; intros Hn; cbn [nsum].
    - apply (ex_derive_const (K := R_AbsRing) (V := R_NormedModule)).
    - apply (ex_derive_ext (fun z => Re (nsum n (fun i => RtoC (f (a + Z.of_nat i)%Z z))) + f (a + Z.of_nat n)%Z z)).
      + intros t. destruct (nsum n _). reflexivity.
      + apply (ex_derive_plus (K := R_AbsRing) (V := R_NormedModule)); [apply IH; lia|apply H; lia]. }
  apply K. lia.
Qed.
Lemma aR_der l m (r z : R) : (0 <= m <= l)%Z -> ex_derive (aR l m r) z.
Proof.
  intros Hm. unfold aR.
  apply (ex_derive_ext (fun z => Re (zsum 0 ((l - m) / 2 + 1) (fun k => RtoC (pw (- (r / 2)) (m + k) / zfact (m + k) * (pw (r / 2) k / zfact k) * (pw z (l - m - 2 * k) / zfact (l - m - 2 * k))))))).
  - intros t. rewrite solid_terms, A_0, B_0 by assumption. f_equal. apply zsum_ext. intros k Hk.
    assert (Hd := Z.div_mod (l - m) 2 ltac:(lia)). assert (Hb := Z.mod_pos_bound (l - m) 2 ltac:(lia)).
    rewrite !dp_RtoC by lia. now rewrite <- !RtoC_mult.
  - apply ex_derive_zsum. intros k Hk.
    assert (Hd := Z.div_mod (l - m) 2 ltac:(lia)). assert (Hb := Z.mod_pos_bound (l - m) 2 ltac:(lia)).
    apply (ex_derive_ext (fun z => pw (- (r / 2)) (m + k) / zfact (m + k) * (pw (r / 2) k / zfact k) * (z ^ Z.to_nat (l - m - 2 * k) * / zfact (l - m - 2 * k)))).
    + intros t. rewrite (pw_nonneg t) by lia. reflexivity.
    + auto_derive. trivial.
Qed.
Definition phi (l m : Z) (t : R) : R := aR l m 1 t / dd 1 t ^ Z.to_nat (2 * l + 1).
Lemma frac_cont l m (r z : R) : (0 <= m <= l)%Z -> r <> 0 -> continuous (fun z => aR l m r z / dd r z ^ Z.to_nat (2 * l + 1)) z.
Proof.
  intros Hm Hr. apply cont_der. assert (D := aR_der l m r z Hm). assert (D2 := dd_dz r z Hr). assert (P := dd_pos r z Hr).
  apply (ex_derive_ext (fun z => aR l m r z * / dd r z ^ Z.to_nat (2 * l + 1))); [reflexivity|].
  apply ex_derive_mult; [exact D|]. apply ex_derive_inv; [|apply pow_nonzero; lra]. apply ex_pow. exact (ex_intro _ _ D2).
Qed.
Lemma dd_hom r z : r <> 0 -> dd r z = Rabs r * dd 1 (z / r).
Proof.
  intros Hr. unfold dd. rewrite <- (sqrt_Rsqr_abs r). rewrite <- sqrt_mult_alt by apply Rle_0_sqr. f_equal. unfold Rsqr. field. assumption.
Qed.
Lemma frac_hom l m r z : (0 <= m <= l)%Z -> r <> 0 ->
  aR l m r z / dd r z ^ Z.to_nat (2 * l + 1) = r ^ Z.to_nat l / Rabs r ^ Z.to_nat (2 * l + 1) * phi l m (z / r).
Proof.
  intros Hm Hr. unfold phi. rewrite aR_hom, dd_hom, Rpow_mult_distr by assumption.
  assert (P := dd_pos 1 (z / r) ltac:(lra)). assert (P2 := Rabs_no_R0 r Hr). field. repeat split; try apply pow_nonzero; lra.
Qed.
(* the integral over z *)
Definition zint (l m : Z) (lo hi : R -> R) (r : R) : R := RInt (fun z => r * (aR l m r z / dd r z ^ Z.to_nat (2 * l + 1))) (lo r) (hi r).
Lemma zint_is l m lo hi r : (0 <= m <= l)%Z -> is_RInt (fun z => r * (aR l m r z / dd r z ^ Z.to_nat (2 * l + 1))) (lo r) (hi r) (zint l m lo hi r).
Proof.
  intros Hm. unfold zint. destruct (Req_dec r 0) as [->|Hr].
  - apply (RInt_correct (V := R_CompleteNormedModule)). exists (scal (hi 0 - lo 0) (0 : R_NormedModule)). apply (is_RInt_ext (fun _ => 0)); [intros; match goal with |- @eq _ ?x ?y => change (@eq R x y) end; ring|].
    apply (is_RInt_const (V := R_NormedModule)).
  - apply cont_int. intros t _. apply cont_mult; [apply cont_der, @ex_derive_const|]. now apply frac_cont.
Qed.
Lemma phi_cont l m (t : R) : (0 <= m <= l)%Z -> continuous (phi l m) t.
Proof. intros Hm. unfold phi. apply frac_cont; [assumption|lra]. Qed.
Lemma zint_val l m lo hi r : (0 <= m <= l)%Z -> r <> 0 ->
  zint l m lo hi r = r * (r * (r ^ Z.to_nat l / Rabs r ^ Z.to_nat (2 * l + 1))) * RInt (phi l m) (lo r / r) (hi r / r).
Proof.
  intros Hm Hr. unfold zint. apply is_RInt_unique.
  assert (K := is_RInt_comp_lin (V := R_NormedModule) (phi l m) (/ r) 0 (lo r) (hi r) (RInt (phi l m) (lo r / r) (hi r / r))).
  replace (/ r * lo r + 0) with (lo r / r) in K by (unfold Rdiv; ring). replace (/ r * hi r + 0) with (hi r / r) in K by (unfold Rdiv; ring).
  specialize (K (cont_int (phi l m) _ _ (fun t _ => phi_cont l m t Hm))).
  assert (K2 := is_RInt_scal _ _ _ (r * (r * (r ^ Z.to_nat l / Rabs r ^ Z.to_nat (2 * l + 1)))) _ K).
  assert (EE : forall t, r * (r * (r ^ Z.to_nat l / Rabs r ^ Z.to_nat (2 * l + 1))) * (/ r * phi l m (/ r * t + 0)) = r * (aR l m r t / dd r t ^ Z.to_nat (2 * l + 1))).
  { intros t. rewrite frac_hom by assumption. replace (/ r * t + 0) with (t / r) by (unfold Rdiv; ring). assert (P2 := Rabs_no_R0 r Hr). field. repeat split; try apply pow_nonzero; assumption. }
  eapply is_RInt_ext; [|exact K2]. intros t _. exact (EE t).
Qed.
Lemma zint_cont l m (lo hi : R -> R) (r : R) : (0 <= m <= l)%Z -> (forall r : R, ex_derive lo r) -> (forall r : R, ex_derive hi r) -> r <> 0 ->
  continuous (zint l m lo hi) r.
Proof.
  intros Hm Dl Dh Hr.
  assert (LL : locally r (fun t => t <> 0)).
  { exists (mkposreal (Rabs r) (Rabs_pos_lt _ Hr)). intros t Ht E. subst t. unfold ball in Ht; cbn in Ht; unfold AbsRing_ball, abs, minus, plus, opp in Ht; cbn in Ht.
    rewrite Rplus_0_l, Rabs_Ropp in Ht. lra. }
  apply (continuous_ext_loc _ (fun r => r * (r * (r ^ Z.to_nat l * / Rabs r ^ Z.to_nat (2 * l + 1))) * RInt (phi l m) (lo r / r) (hi r / r))).
  { eapply filter_imp; [|exact LL]. intros t Ht. symmetry. now apply zint_val. }
  assert (CI : continuous (fun r : R => r) r) by apply continuous_id.
  apply cont_mult.
  - apply cont_mult; [exact CI|]. apply cont_mult; [exact CI|]. apply cont_mult; [apply cont_comp_pow; exact CI|].
    apply (continuous_comp (fun r => Rabs r ^ Z.to_nat (2 * l + 1)) Rinv).
    + apply cont_comp_pow. apply continuous_Rabs.
    + apply cont_der. auto_derive. apply pow_nonzero, Rabs_no_R0, Hr.
  - set (k := Rmin (lo r / r) (hi r / r) - 1). apply (cont_bounds (phi l m) k).
    + intros. now apply phi_cont.
    + unfold k. assert (G1 := Rmin_l (lo r / r) (hi r / r)). lra.
    + unfold k. assert (G1 := Rmin_r (lo r / r) (hi r / r)). lra.
    + apply cont_der. apply ex_derive_div; auto. apply ex_derive_id.
    + apply cont_der. apply ex_derive_div; auto. apply ex_derive_id.
Qed.
Lemma cyl_outer_int l m (p : R) (lo1 hi1 lo hi : R -> R) : (0 <= m <= l)%Z ->
  (forall r : R, ex_derive lo r) -> (forall r : R, ex_derive hi r) ->
  (forall th, 0 < lo1 th * hi1 th \/ lo1 th = hi1 th) ->
  (forall th, Rmin (- p) p <= th <= Rmax (- p) p -> 0 < lo1 th /\ 0 < hi1 th /\ continuous lo1 th /\ continuous hi1 th) ->
  exists I, cylB p lo1 hi1 lo hi (fun x y z => isolid l m (x, y, z)) I.
Proof.
  intros Hm Dl Dh SS HC. eexists. unfold cylB.
  eapply is_int3_ext; [|apply (sep_int3 p lo1 hi1 lo hi (fun th => (RtoC (nrm l m) * cexpi (IZR m * th))%C)
    (fun r z => r * (aR l m r z / dd r z ^ Z.to_nat (2 * l + 1))) (zint l m lo hi) (fun th => RInt (zint l m lo hi) (lo1 th) (hi1 th)))].
  - intros th r z. cbv beta. destruct (Req_dec r 0) as [->|Hr].
    + rewrite Rmult_0_l. ring.
    + rewrite isolid_cyl by assumption. rewrite (RtoC_mult r). ring.
  - intros r. now apply zint_is.
  - intros th. destruct (SS th) as [Hp|He].
    + apply cont_int. intros t Ht. apply zint_cont; auto. intros ->. unfold Rmin, Rmax in Ht. destruct (Rle_dec (lo1 th) (hi1 th)); nra.
    + rewrite He. rewrite RInt_point. apply (is_RInt_point (V := R_NormedModule)).
  - intros th Hth. destruct (HC th Hth) as (H1 & H2 & H3 & H4). apply (cont_bounds (zint l m lo hi) 0); auto. intros r Hr. apply zint_cont; auto. lra.
  - intros th. apply (cont_der (fun t => Re (RtoC (nrm l m) * cexpi (IZR m * t))%C)). unfold cexpi. cbn. auto_derive. trivial.
  - intros th. apply (cont_der (fun t => Im (RtoC (nrm l m) * cexpi (IZR m * t))%C)). unfold cexpi. cbn. auto_derive. trivial.
Qed.
(* ---- bodies above or below the plane z = 0: the radius may reach the axis ---- *)
Lemma cont2_slice (f : R -> R -> R) (x y : R) : continuity_2d_pt f x y -> continuous (f x) y.
Proof.
  intros H. apply continuity_pt_filterlim. intros eps He. destruct (H (mkposreal eps He)) as [d Hd]. exists d. split; [apply cond_pos|].
  intros t [_ Ht]. cbn in *. unfold R_dist in *. apply Hd; [|exact Ht]. rewrite Rminus_diag_eq, Rabs_R0 by reflexivity. apply cond_pos.
Qed.
Lemma cont_param (f : R -> R -> R) (a b r : R) : a <= b -> (forall r z, a <= z <= b -> continuity_2d_pt f r z) ->
  continuous (fun r => RInt (f r) a b) r.
Proof.
  intros Hab HC. assert (EI : forall r, ex_RInt (f r) a b).
  { intros s. apply (ex_RInt_continuous (V := R_CompleteNormedModule)). intros z Hz. rewrite Rmin_left, Rmax_right in Hz by lra. apply cont2_slice. auto. }
  apply continuity_pt_filterlim. intros eps He. assert (Hp : 0 < eps / (b - a + 1)) by (apply Rdiv_lt_0_compat; lra).
  destruct (uniform_continuity_2d_1d' f a b r (fun z Hz => HC r z Hz) (mkposreal _ Hp)) as [d Hd]. cbn in Hd.
  exists d. split; [apply cond_pos|]. intros t [_ Ht]. cbn in *. unfold R_dist in *. assert (D0 := cond_pos d).
  assert (E : RInt (f t) a b - RInt (f r) a b = RInt (fun z => f t z - f r z) a b).
  { symmetry. apply (RInt_minus (V := R_CompleteNormedModule) (f t) (f r) a b); auto. }
  change (Rabs (RInt (f t) a b - RInt (f r) a b) < eps). rewrite E.
  assert (K := abs_RInt_le_const (fun z => f t z - f r z) a b (eps / (b - a + 1)) Hab).
  assert (EX : ex_RInt (fun z => f t z - f r z) a b) by (apply (ex_RInt_minus (V := R_NormedModule) (f t) (f r) a b); auto).
  specialize (K EX). apply Rle_lt_trans with ((b - a) * (eps / (b - a + 1))).
  - apply K. intros z Hz. apply Rlt_le, Hd; try lra; [apply Rabs_def2 in Ht; lra|]. rewrite Rminus_diag_eq, Rabs_R0 by reflexivity. exact D0.
  - apply Rmult_lt_reg_r with (b - a + 1); [lra|]. replace ((b - a) * (eps / (b - a + 1)) * (b - a + 1)) with ((b - a) * eps) by (field; lra). nra.
Qed.
Lemma cont2_zsum (a b : Z) (f : Z -> R -> R -> R) (x y : R) : (forall k, (a <= k < b)%Z -> continuity_2d_pt (f k) x y) ->
  continuity_2d_pt (fun u v => Re (zsum a b (fun k => RtoC (f k u v)))) x y.
Proof.
  intros H. unfold zsum. assert (K : forall n, (Z.of_nat n <= Z.max 0 (b - a))%Z -> continuity_2d_pt (fun u v => Re (nsum n (fun i => RtoC (f (a + Z.of_nat i)%Z u v)))) x y).
  { induction n as [|n IH]; intros Hn; cbn [nsum].
    - apply continuity_2d_pt_const.
    - apply (continuity_2d_pt_ext (fun u v => Re (nsum n (fun i => RtoC (f (a + Z.of_nat i)%Z u v))) + f (a + Z.of_nat n)%Z u v)).
      + intros s t. destruct (nsum n _). reflexivity.
      + apply continuity_2d_pt_plus; [apply IH; lia|apply H; lia]. }
  apply K. lia.
Qed.
Lemma cont_cpt (f : R -> R) (x : R) : ex_derive f x -> continuity_pt f x.
Proof. intros H. apply continuity_pt_filterlim. now apply cont_der. Qed.
Lemma aR_cont2 l m (r z : R) : (0 <= m <= l)%Z -> continuity_2d_pt (aR l m) r z.
Proof.
  intros Hm. unfold aR.
  apply (continuity_2d_pt_ext (fun r z => Re (zsum 0 ((l - m) / 2 + 1) (fun k => RtoC (pw (- (r / 2)) (m + k) / zfact (m + k) * (pw (r / 2) k / zfact k) * (pw z (l - m - 2 * k) / zfact (l - m - 2 * k))))))).
  - intros s t. rewrite solid_terms, A_0, B_0 by assumption. f_equal. apply zsum_ext. intros k Hk.
    assert (Hd := Z.div_mod (l - m) 2 ltac:(lia)). assert (Hb := Z.mod_pos_bound (l - m) 2 ltac:(lia)).
    rewrite !dp_RtoC by lia. now rewrite <- !RtoC_mult.
  - apply cont2_zsum. intros k Hk.
    assert (Hd := Z.div_mod (l - m) 2 ltac:(lia)). assert (Hb := Z.mod_pos_bound (l - m) 2 ltac:(lia)).
    apply (continuity_2d_pt_ext (fun r z => (- (r / 2)) ^ Z.to_nat (m + k) * / zfact (m + k) * ((r / 2) ^ Z.to_nat k * / zfact k) * (z ^ Z.to_nat (l - m - 2 * k) * / zfact (l - m - 2 * k)))).
    + intros s t. rewrite !pw_nonneg by lia. reflexivity.
    + apply continuity_2d_pt_mult; [apply continuity_2d_pt_mult|].
      * apply (continuity_1d_2d_pt_comp (fun r => (- (r / 2)) ^ Z.to_nat (m + k) * / zfact (m + k)) (fun u _ => u)); [apply cont_cpt; auto_derive; trivial|apply continuity_2d_pt_id1].
      * apply (continuity_1d_2d_pt_comp (fun r => (r / 2) ^ Z.to_nat k * / zfact k) (fun u _ => u)); [apply cont_cpt; auto_derive; trivial|apply continuity_2d_pt_id1].
      * apply (continuity_1d_2d_pt_comp (fun r => r ^ Z.to_nat (l - m - 2 * k) * / zfact (l - m - 2 * k)) (fun _ u => u)); [apply cont_cpt; auto_derive; trivial|apply continuity_2d_pt_id2].
Qed.
Lemma frac_cont2 l m (r z : R) : (0 <= m <= l)%Z -> z <> 0 -> continuity_2d_pt (fun r z => r * (aR l m r z / dd r z ^ Z.to_nat (2 * l + 1))) r z.
Proof.
  intros Hm Hz. assert (P : 0 < r * r + z * z) by (assert (G := Rle_0_sqr r); assert (G2 := Rsqr_pos_lt z Hz); unfold Rsqr in *; lra).
  assert (D : 0 < dd r z) by (unfold dd; now apply sqrt_lt_R0).
  apply continuity_2d_pt_mult; [apply continuity_2d_pt_id1|].
  apply (continuity_2d_pt_ext (fun r z => aR l m r z * / dd r z ^ Z.to_nat (2 * l + 1))); [reflexivity|].
  apply continuity_2d_pt_mult; [now apply aR_cont2|]. apply continuity_2d_pt_inv; [|apply pow_nonzero; lra].
  apply (continuity_1d_2d_pt_comp (fun d => d ^ Z.to_nat (2 * l + 1)) dd); [apply cont_cpt; auto_derive; trivial|].
  unfold dd. apply (continuity_1d_2d_pt_comp sqrt (fun r z => r * r + z * z)).
  - apply continuity_pt_filterlim, continuous_sqrt.
  - apply continuity_2d_pt_plus; apply continuity_2d_pt_mult; (apply continuity_2d_pt_id1 || apply continuity_2d_pt_id2).
Qed.
Lemma zint_cont_off l m (h1 h2 r : R) : (0 <= m <= l)%Z -> h1 <= h2 -> ~ (h1 <= 0 <= h2) -> continuous (zint l m (fun _ => h1) (fun _ => h2)) r.
Proof.
  intros Hm Hh H0. apply (cont_param (fun r z => r * (aR l m r z / dd r z ^ Z.to_nat (2 * l + 1)))); [assumption|].
  intros s z Hz. apply frac_cont2; [assumption|]. intros ->. lra.
Qed.
(* from the existence of the integrals to the moments *)
Lemma outer_gen (p : R) (lo1 hi1 lo hi : R -> R) eps tpl L rho : accurate eps tpl -> (0 <= L)%Z ->
  (forall l m, (0 <= m <= l)%Z -> exists I, cylB p lo1 hi1 lo hi (fun x y z => isolid l m (x, y, z)) I) ->
  (forall u, lo1 (- u) = lo1 u) -> (forall u, hi1 (- u) = hi1 u) ->
  let q := num_finish L rho (fun l m => tpl (cyl_integrand_Qlmb l m) (- p) p lo1 hi1 (fun _ => lo) (fun _ => hi)) in
  deg q = L /\ approx_outer eps q rho (cylB p lo1 hi1 lo hi).
Proof.
  intros HA HL HX El Eh.
  apply (num_assemble (cylB p lo1 hi1 lo hi) (fun l m x y z => isolid l m (x, y, z)) eps L rho); [assumption|apply regular_cylB|intros; apply isolid_symm|].
  intros l m Hm Hl. destruct (HX l m Hm) as (I & HI). exists I. split; [exact HI|]. split.
  - apply (int3_sym_outer p lo1 hi1 (fun _ => lo) (fun _ => hi) (fun ph r z => RtoC r * isolid l m (r * cos ph, r * sin ph, z)%R)%C); auto.
    intros u v w. destruct (Req_dec v 0) as [->|Hv]; [rewrite !Cmult_0_l; apply C_eq; cbn; ring|].
    rewrite !isolid_cyl by assumption. rewrite !Cconj_mult, !Cconj_RtoC, cexpi_conj. do 4 f_equal. ring.
  - apply HA. eapply is_int3_ext; [|apply int3_re, HI]. intros u v w. cbv beta. now rewrite Qlmb_integrand_ok.
Qed.
Lemma off_int l m (p h1 h2 : R) (lo1 hi1 : R -> R) : (0 <= m <= l)%Z -> h1 <= h2 -> ~ (h1 <= 0 <= h2) ->
  (forall th, Rmin (- p) p <= th <= Rmax (- p) p -> continuous lo1 th /\ continuous hi1 th) ->
  exists I, cylB p lo1 hi1 (fun _ => h1) (fun _ => h2) (fun x y z => isolid l m (x, y, z)) I.
Proof.
  intros Hm Hh H0 HC. eexists. unfold cylB.
  set (w := zint l m (fun _ => h1) (fun _ => h2)).
  eapply is_int3_ext; [|apply (sep_int3 p lo1 hi1 (fun _ => h1) (fun _ => h2) (fun th => (RtoC (nrm l m) * cexpi (IZR m * th))%C)
    (fun r z => r * (aR l m r z / dd r z ^ Z.to_nat (2 * l + 1))) w (fun th => RInt w (lo1 th) (hi1 th)))].
  - intros th r z. cbv beta. destruct (Req_dec r 0) as [->|Hr].
    + rewrite Rmult_0_l. ring.
    + rewrite isolid_cyl by assumption. rewrite (RtoC_mult r). ring.
  - intros r. now apply zint_is.
  - intros th. apply cont_int. intros t _. now apply zint_cont_off.
  - intros th Hth. destruct (HC th Hth) as (H1 & H2). set (k := Rmin (lo1 th) (hi1 th) - 1). apply (cont_bounds w k); auto.
    + intros. now apply zint_cont_off.
    + unfold k. assert (G1 := Rmin_l (lo1 th) (hi1 th)). lra.
    + unfold k. assert (G1 := Rmin_r (lo1 th) (hi1 th)). lra.
  - intros th. apply (cont_der (fun t => Re (RtoC (nrm l m) * cexpi (IZR m * t))%C)). unfold cexpi. cbn. auto_derive. trivial.
  - intros th. apply (cont_der (fun t => Im (RtoC (nrm l m) * cexpi (IZR m * t))%C)). unfold cexpi. cbn. auto_derive. trivial.
Qed.
