(* The integrands of qlmNum/bigQlmNum, and the passage from an accurate integrator to the moments. *)
From Verif Require Export NumSpec AnnProofs.
From Verif Require Import Pg2MultiProofs ClebschGordanProofs Props_BigQlm2.
From Verif Require Import Cplx.
Open Scope C_scope.

(* ---- the integrands ---- *)
Lemma num_fac_nrm l m : num_fac l m = (sgnR m * nrm l m)%R.
Proof. unfold num_fac, nrm. do 2 f_equal. unfold Rdiv. ring. Qed.
Lemma sgnR_C k : RtoC (sgnR k) = sgnC k. Proof. unfold sgnR, sgnC. now destruct (Z.even k). Qed.
Lemma sgnC_add a b : sgnC (a + b) = sgnC a * sgnC b.
Proof. unfold sgnC. rewrite Z.even_add. destruct (Z.even a), (Z.even b); cbn [eqb]; apply C_eq; cbn; ring. Qed.
Lemma pw2k_ne m : pw 2 m <> 0%R. Proof. apply pw2_neq0. Qed.
Definition shi_cyl (l m : Z) (r z : R) : C := zsum 0 ((l - m) / 2 + 1) (fun k => let m2k := (m + 2 * k)%Z in
     RtoC (sgnR k * pw r m2k * pw z (l - m2k) / (pw 2 m2k * (zfact (m + k) * zfact k * zfact (l - m2k))))).
Lemma shi_aR l m r z : (0 <= m <= l)%Z -> shi_cyl l m r z = sgnC m * RtoC (aR l m r z).
Proof.
  intros Hm. rewrite <- solid_az0, solid_terms by assumption. unfold shi_cyl. rewrite <- zsum_scal_l. apply zsum_ext. intros k Hk. cbv zeta.
  assert (Hd := Z.div_mod (l - m) 2 ltac:(lia)). assert (Hb := Z.mod_pos_bound (l - m) 2 ltac:(lia)).
  assert (P := polar_term m k r 0 ltac:(lia) ltac:(lia)). rewrite cos_0, sin_0, Rmult_1_r, !Rmult_0_r, Ropp_0, cexpi_0 in P.
  rewrite P, dp_RtoC by lia. rewrite sgnC_add. replace (l - (m + 2 * k))%Z with (l - m - 2 * k)%Z by ring.
  transitivity (sgnC m * sgnC m * (sgnC k * (RtoC (pw r (m + 2 * k) / (pw 2 (m + 2 * k) * zfact (m + k) * zfact k)) * RtoC (pw z (l - m - 2 * k) / zfact (l - m - 2 * k))))); [|ring].
  rewrite sgnC_sq, Cmult_1_l, <- sgnR_C, <- !RtoC_mult. f_equal.
  assert (F1 := zfact_neq0 (m + k)). assert (F2 := zfact_neq0 k). assert (F3 := zfact_neq0 (l - m - 2 * k)). assert (F4 := pw2k_ne (m + 2 * k)).
  field. repeat split; assumption.
Qed.
Lemma solid_cyl l m r th z : (0 <= m <= l)%Z -> solid l m (r * cos th) (r * sin th) z = cexpi (- (IZR m * th)) * RtoC (aR l m r z).
Proof.
  intros Hm. rewrite <- solid_az0 by assumption. rewrite <- solid_turn. f_equal; ring.
Qed.
Lemma cyl_integrand_ok l m z r th : (0 <= m <= l)%Z ->
  cyl_integrand_qlm l m z r th = Re (RtoC r * rsolid l m (r * cos th, r * sin th, z)%R).
Proof.
  intros Hm. unfold cyl_integrand_qlm. cbv zeta. fold (shi_cyl l m r z). rewrite shi_aR by assumption. unfold rsolid. rewrite solid_cyl by assumption.
  f_equal. rewrite num_fac_nrm, RtoC_mult, sgnR_C.
  transitivity (sgnC m * sgnC m * (RtoC r * (RtoC (nrm l m) * (cexpi (- (IZR m * th)) * RtoC (aR l m r z))))); [ring|]. rewrite sgnC_sq. ring.
Qed.
Lemma Qlmb_integrand_ok l m z r th : (0 <= m <= l)%Z ->
  cyl_integrand_Qlmb l m z r th = Re (RtoC r * isolid l m (r * cos th, r * sin th, z)%R).
Proof.
  intros Hm. unfold cyl_integrand_Qlmb. cbv zeta. fold (shi_cyl l m r z). rewrite shi_aR by assumption. unfold isolid, rsolid. rewrite solid_cyl by assumption.
  assert (E : vnorm (r * cos th, r * sin th, z)%R = sqrt (r ^ 2 + z ^ 2)).
  { unfold vnorm. f_equal. assert (G := sin2_cos2 th). unfold Rsqr in G. transitivity (r * r * (sin th * sin th + cos th * cos th) + z * z)%R; [ring|]. rewrite G. ring. }
  rewrite E. f_equal. rewrite num_fac_nrm, RtoC_mult, sgnR_C, !Cconj_mult, !Cconj_RtoC, cexpi_conj, Ropp_involutive.
  set (d := RtoC (_ ^ _)). unfold Cdiv.
  transitivity (sgnC m * sgnC m * (RtoC r * (RtoC (nrm l m) * (cexpi (IZR m * th) * RtoC (aR l m r z)) * / d))); [ring|]. rewrite sgnC_sq. ring.
Qed.
Lemma cart_integrand_ok l m z y x : (0 <= m <= l)%Z -> cart_integrand_qlm_zyx l m z y x = Re (rsolid l m (x, y, z)).
Proof.
  intros Hm. unfold cart_integrand_qlm_zyx. cbv zeta. f_equal. unfold rsolid. rewrite solid_terms by assumption.
  rewrite <- !zsum_scal_r, <- zsum_scal_l. apply zsum_ext. intros k Hk.
  assert (Hd := Z.div_mod (l - m) 2 ltac:(lia)). assert (Hb := Z.mod_pos_bound (l - m) 2 ltac:(lia)).
  unfold A_, B_. replace (- (RtoC x - Ci * RtoC y) / RtoC 2) with (- ((RtoC x - Ci * RtoC y) * RtoC (/ 2))) by (apply C_eq; cbn; field).
  replace ((RtoC x + Ci * RtoC y) / RtoC 2) with ((RtoC x + Ci * RtoC y) * RtoC (/ 2)) by (apply C_eq; cbn; field).
  rewrite dp_opp, !dp_scal by lia. rewrite !dp_RtoC by lia. rewrite num_fac_nrm, (RtoC_mult (sgnR m)), !sgnR_C.
  set (P := cpow (RtoC x + _) _). set (M := cpow (RtoC x - _) _). rewrite sgnC_add. replace (l - (m + 2 * k))%Z with (l - m - 2 * k)%Z by ring.
  transitivity (sgnC k * sgnC m * RtoC (nrm l m) * P * M * (RtoC (pw z (l - m - 2 * k)) / RtoC (pw 2 (m + 2 * k) * (zfact (m + k) * zfact k * zfact (l - m - 2 * k))))); [unfold Cdiv; ring|].
  assert (F1 := zfact_neq0 (m + k)). assert (F2 := zfact_neq0 k). assert (F3 := zfact_neq0 (l - m - 2 * k)). assert (F4 := pw2k_ne (m + 2 * k)).
  assert (F5 := pw2k_ne (m + k)). assert (F6 := pw2k_ne k).
  rewrite <- RtoC_div by (repeat apply Rmult_integral_contrapositive_currified; assumption).
  transitivity (sgnC k * sgnC m * RtoC (nrm l m) * P * M * (RtoC (pw (/ 2) (m + k) / zfact (m + k)) * RtoC (pw (/ 2) k / zfact k) * RtoC (pw z (l - m - 2 * k) / zfact (l - m - 2 * k)))); [|ring].
  f_equal. rewrite <- !RtoC_mult. f_equal. replace (/ 2)%R with (1 / 2)%R by field. rewrite !pw_div by (lia || lra).
  assert (O : forall n, (0 <= n)%Z -> pw 1 n = 1%R) by (intros n Hn; rewrite pw_nonneg, pow1 by assumption; reflexivity).
  rewrite !O by lia. replace (m + 2 * k)%Z with (m + k + k)%Z by ring. replace (m + 2 * k)%Z with (m + k + k)%Z in F4 by ring. rewrite (pw_add_nonneg 2 (m + k) k) by lia.
  field. repeat split; assumption.
Qed.

(* ---- real parts and reflection of iterated integrals ---- *)
Lemma is_CInt_re f a b v : is_CInt f a b v -> is_CInt (fun t => RtoC (Re (f t))) a b (RtoC (Re v)).
Proof. intros [H _]. now apply is_CInt_real. Qed.
Lemma int3_re a b lo1 hi1 lo2 hi2 f I : is_int3 a b lo1 hi1 lo2 hi2 f I ->
  is_int3 a b lo1 hi1 lo2 hi2 (fun u v w => RtoC (Re (f u v w))) (RtoC (Re I)).
Proof.
  intros (g & h & H1 & H2 & H3). exists (fun u v => RtoC (Re (g u v))), (fun u => RtoC (Re (h u))).
  split; [|split]; intros; now apply is_CInt_re.
Qed.
Lemma is_RInt_flip (f : R -> R) (a b v : R) : is_RInt f a b v -> is_RInt (fun t => f (- t)%R) (- b) (- a) v.
Proof.
  intros H. assert (H' : is_RInt f (- - a) (- - b) v) by now rewrite !Ropp_involutive.
  assert (K1 := is_RInt_comp_opp f (- a) (- b) v H'). assert (K2 := is_RInt_swap (fun y : R => opp (f (- y)%R)) (- b) (- a) v K1).
  assert (K3 := is_RInt_scal (fun y : R => opp (f (- y)%R)) (- b) (- a) (-1) _ K2).
  replace v with (scal (-1)%R (opp v) : R) by (unfold scal, opp; cbn; unfold mult; cbn; ring).
  eapply is_RInt_ext; [|exact K3]. intros t _. unfold scal, opp; cbn; unfold mult; cbn. match goal with |- @eq _ ?x ?y => change (@eq R x y) end. ring.
Qed.
Lemma is_CInt_flip f a b v : is_CInt f a b v -> is_CInt (fun t => f (- t)%R) (- b) (- a) v.
Proof. intros [H1 H2]. split; [exact (is_RInt_flip _ _ _ _ H1)|exact (is_RInt_flip _ _ _ _ H2)]. Qed.
(* symmetric under u -> -u up to conjugation *)
Lemma int3_sym_outer p lo1 hi1 lo2 hi2 f I : (forall u, lo1 (- u)%R = lo1 u) -> (forall u, hi1 (- u)%R = hi1 u) ->
  (forall u v, lo2 (- u)%R v = lo2 u v) -> (forall u v, hi2 (- u)%R v = hi2 u v) -> (forall u v w, f (- u)%R v w = Cconj (f u v w)) ->
  is_int3 (- p) p lo1 hi1 lo2 hi2 f I -> Cconj I = I.
Proof.
  intros E1 E2 E3 E4 E5 H. apply (is_int3_unique (- p) p lo1 hi1 lo2 hi2 (fun u v w => f (- u)%R v w)).
  - eapply is_int3_ext; [|apply is_int3_conj, H]. intros. now rewrite E5.
  - destruct H as (g & h & H1 & H2 & H3). exists (fun u => g (- u)%R), (fun u => h (- u)%R). split; [|split].
    + intros u v. rewrite <- (E3 u), <- (E4 u). apply H1.
    + intros u. rewrite <- (E1 u), <- (E2 u). apply H2.
    + apply is_CInt_flip in H3. now rewrite Ropp_involutive in H3.
Qed.
(* symmetric under v -> -v up to conjugation *)
Lemma int3_sym_mid a b s lo2 hi2 f I :
  (forall u v, lo2 u (- v)%R = lo2 u v) -> (forall u v, hi2 u (- v)%R = hi2 u v) -> (forall u v w, f u (- v)%R w = Cconj (f u v w)) ->
  is_int3 a b (fun u => (- s u)%R) s lo2 hi2 f I -> Cconj I = I.
Proof.
  intros E3 E4 E5 H. apply (is_int3_unique a b (fun u => (- s u)%R) s lo2 hi2 (fun u v w => f u (- v)%R w)).
  - eapply is_int3_ext; [|apply is_int3_conj, H]. intros. now rewrite E5.
  - destruct H as (g & h & H1 & H2 & H3). exists (fun u v => g u (- v)%R), h. split; [|split].
    + intros u v. rewrite <- (E3 u), <- (E4 u). apply H1.
    + intros u. assert (K := is_CInt_flip _ _ _ _ (H2 u)). now rewrite Ropp_involutive in K.
    + exact H3.
Qed.

(* ---- from the integrals to the array ---- *)
Lemma num_assemble (B : body) (harm : Z -> Z -> R -> R -> R -> C) eps L rho quad : (0 <= L)%Z -> regular B ->
  (forall l m x y z, harm l (- m)%Z x y z = sgnC m * Cconj (harm l m x y z)) ->
  (forall l m, (0 <= m <= l)%Z -> (l <= L)%Z -> exists I, B (harm l m) I /\ Cconj I = I /\ (Rabs (quad l m - Re I) <= eps)%R) ->
  let q := num_finish L rho quad in
  deg q = L /\
  (forall l m, (0 <= l <= deg q)%Z -> (Z.abs m <= l)%Z ->
     exists I, B (harm l m) I /\ (Cmod (mom q l m - RtoC rho * I)%C <= Rabs rho * eps)%R) /\ reality q /\ corners0 q.
Proof.
  intros HL RB HS HI q. assert (HF := half_fill L (fun l m => RtoC rho * RtoC (quad l m)) HL).
  split; [unfold q, num_finish; rewrite deg_reflect, deg_fill by lia; reflexivity|]. split; [|apply (reflect_reality _ _ HF)].
  assert (D : deg q = L) by (unfold q, num_finish; rewrite deg_reflect, deg_fill by lia; reflexivity).
  assert (Bd : forall l m I, Cconj I = I -> (Rabs (quad l m - Re I) <= eps)%R -> (Cmod (RtoC rho * RtoC (quad l m) - RtoC rho * I)%C <= Rabs rho * eps)%R).
  { intros l m I CI HQ. apply Cconj_fix_real in CI. destruct I as [i0 i1]. cbn in CI, HQ. subst i1.
    replace (RtoC rho * RtoC (quad l m) - RtoC rho * (i0, 0%R)) with (RtoC (rho * (quad l m - i0))) by (apply C_eq; cbn; ring).
    rewrite Cmod_R, Rabs_mult. apply Rmult_le_compat_l; [apply Rabs_pos|exact HQ]. }
  intros l m Hl Hm. rewrite D in Hl. unfold q, num_finish. rewrite (reflect_mom _ _ _ _ HF) by (rewrite ?deg_fill by lia; cbn [deg zeros]; lia).
  destruct (Z.eqb_spec m 0) as [->|Hm0].
  - destruct (HI l 0%Z ltac:(lia) ltac:(lia)) as (I & H1 & H2 & H3). exists I. split; [exact H1|].
    replace (RtoC (Re (RtoC rho * RtoC (quad l 0%Z)))) with (RtoC rho * RtoC (quad l 0%Z)) by (apply C_eq; cbn; ring). now apply Bd.
  - destruct (Z.ltb_spec 0 m), (Z.leb_spec m l), (Z.ltb_spec m 0), (Z.leb_spec (- m) l); try lia; cbn [andb].
    + destruct (HI l m ltac:(lia) ltac:(lia)) as (I & H4 & H5 & H6). exists I. split; [exact H4|now apply Bd].
    + destruct (HI l (- m)%Z ltac:(lia) ltac:(lia)) as (I & H4 & H5 & H6). exists (sgnC m * Cconj I). split.
      * eapply (reg_ext B RB); [|apply (reg_scal B RB (sgnC m) _ _ (reg_conj B RB _ _ H4))]. intros x y z. cbv beta.
        assert (G := HS l (- m)%Z x y z). rewrite Z.opp_involutive, sgnC_opp in G. now rewrite G.
      * rewrite H5. replace (Cconj (RtoC rho * RtoC (quad l (- m)%Z))) with (RtoC rho * RtoC (quad l (- m)%Z)) by (apply C_eq; cbn; ring).
        replace (sgnC m * (RtoC rho * RtoC (quad l (- m)%Z)) - RtoC rho * (sgnC m * I)) with (sgnC m * (RtoC rho * RtoC (quad l (- m)%Z) - RtoC rho * I)) by ring.
        rewrite Cmod_mult. replace (Cmod (sgnC m)) with 1%R; [rewrite Rmult_1_l; now apply Bd|].
        unfold sgnC. destruct (Z.even m); rewrite Cmod_R, ?Rabs_R1, ?Rabs_left; lra.
Qed.
