(* The closed forms of qlmACH.py are volume integrals: the slanted hole. *)
From Verif Require Export AchProofs4 AchProofs7.
From Verif Require Import ClebschGordanProofs TranslationsProofs.
From Verif Require Import Cplx.
Open Scope C_scope.

Lemma regular_hole t r th : regular (slanted_hole t r th).
Proof. apply (regular_int3 _ _ _ _ _ _ (fun f p s z => RtoC (s / cos th) * f (z * tan th + s * cos p / cos th)%R (s * sin p)%R z)); intros; [now rewrite H|ring|ring|rewrite Cconj_mult, Cconj_RtoC; ring]. Qed.
Fixpoint rsum (n : nat) (f : Z -> R) : R := match n with O => 0%R | S k => (rsum k f + f (Z.of_nat k))%R end.
Lemma rsum_zsum n f : (0 <= n)%Z -> RtoC (rsum (Z.to_nat n) f) = zsum 0 n (fun j => RtoC (f j)).
Proof.
  intros Hn. rewrite <- (Z2Nat.id n) at 2 by assumption. induction (Z.to_nat n) as [|k IH].
  - cbn [rsum Z.of_nat]. now rewrite zsum_empty by lia.
  - cbn [rsum]. rewrite RtoC_plus, IH. replace (Z.of_nat (S k)) with (Z.of_nat k + 1)%Z by lia. rewrite zsum_last by lia. reflexivity.
Qed.
Definition W2 (j b : Z) : R := (TF (Z.to_nat j) (Z.to_nat b) (2 * PI) - TF (Z.to_nat j) (Z.to_nat b) 0)%R.
(* one product term: s^(n+1) cos^j sin^b z^i *)
Lemma hole_term t r j b n i : (0 <= n)%Z -> (0 <= i)%Z ->
  is_int3 0 (2 * PI) (fun _ => 0%R) (fun _ => r) (fun _ _ => (- t / 2)%R) (fun _ _ => (t / 2)%R)
    (fun p s z => RtoC (cos p ^ j * sin p ^ b) * RtoC (pw s (n + 1)) * RtoC (pw z i))
    (RtoC ((TF j b (2 * PI) - TF j b 0) * (pw r (n + 2) / IZR (n + 2)) * (zfact i * zval t i))).
Proof.
  intros Hn Hi. exists (fun p s => RtoC (cos p ^ j * sin p ^ b * (zfact i * zval t i)) * RtoC (pw s (n + 1))), (fun p => RtoC (pw r (n + 2) / IZR (n + 2) * (zfact i * zval t i)) * RtoC (cos p ^ j * sin p ^ b)).
  split; [|split].
  - intros p s. eapply is_CInt_val; [|apply is_CInt_scal; apply zint_pw; assumption]. rewrite <- !RtoC_mult. f_equal. ring.
  - intros p. eapply is_CInt_val; [|apply is_CInt_scal; apply rint; lia]. replace (n + 1 + 1)%Z with (n + 2)%Z by ring. rewrite pw_zero by lia. rewrite <- !RtoC_mult. f_equal. field. apply IZR_pos_neq0; lia.
  - eapply is_CInt_val; [|apply is_CInt_scal; apply trig_int]. rewrite <- !RtoC_mult. f_equal. ring.
Qed.
Definition hole_c (T C_ : R) (a c j : Z) : R := (zfact a / (zfact (a - j) * zfact j) * pw T (a - j) / pw C_ (j + 1) / zfact c)%R.
Definition mu_hole (t r T C_ : R) (a b c : Z) : R :=
  rsum (Z.to_nat (a + 1)) (fun j => (hole_c T C_ a c j * (W2 j b * (pw r (j + b + 2) / IZR (j + b + 2)) * (zfact (a - j + c) * zval t (a - j + c))))%R).
Lemma pw_binom x y n : (0 <= n)%Z -> RtoC (pw (x + y) n) = zsum 0 (n + 1) (fun j => RtoC (zfact n / (zfact (n - j) * zfact j) * pw x (n - j) * pw y j)).
Proof.
  intros Hn. assert (F := zfact_neq0 n). transitivity (RtoC (zfact n) * dp (RtoC x + RtoC y) n).
  - rewrite <- RtoC_plus, dp_RtoC, <- RtoC_mult by assumption. f_equal. field. assumption.
  - rewrite dp_add, <- zsum_scal_l. apply zsum_ext. intros j Hj. rewrite !dp_RtoC, <- !RtoC_mult by lia. f_equal.
    assert (F1 := zfact_neq0 j). assert (F2 := zfact_neq0 (n - j)). field. split; assumption.
Qed.
Lemma hole_mono t r th a b c : cos th <> 0%R -> (0 <= a)%Z -> (0 <= b)%Z -> (0 <= c)%Z -> slanted_hole t r th (mono a b c) (RtoC (mu_hole t r (tan th) (cos th) a b c)).
Proof.
  intros Hc0 Ha Hb Hc. unfold slanted_hole, mu_hole. rewrite rsum_zsum by lia.
  assert (RB := regular_plain 0 (2 * PI) (fun _ => 0%R) (fun _ => r) (fun _ _ => (- t / 2)%R) (fun _ _ => (t / 2)%R)).
  assert (G := reg_zsum _ 0 (a + 1) (fun j p s z => RtoC (hole_c (tan th) (cos th) a c j) * (RtoC (cos p ^ Z.to_nat j * sin p ^ Z.to_nat b) * RtoC (pw s (j + b + 1)) * RtoC (pw z (a - j + c))))
    (fun j => RtoC (hole_c (tan th) (cos th) a c j * (W2 j b * (pw r (j + b + 2) / IZR (j + b + 2)) * (zfact (a - j + c) * zval t (a - j + c))))) RB ltac:(lia)).
  eapply is_int3_ext; [|apply G].
  - intros p s z. cbv beta. unfold mono. rewrite RtoC_mult. rewrite (pw_binom (z * tan th)) by assumption.
    rewrite <- !zsum_scal_r, <- zsum_scal_l. apply zsum_ext. intros j Hj. rewrite dp_RtoC by assumption. rewrite <- !RtoC_mult. f_equal. unfold hole_c.
    replace (s * cos p / cos th)%R with (s * (cos p * / cos th))%R by (unfold Rdiv; ring). rewrite !pw_mult by lia.
    rewrite (pw_nonneg (/ cos th)), <- !(pw_nonneg (cos p)), <- !(pw_nonneg (sin p)) by lia. rewrite pow_inv, <- pw_nonneg by lia.
    rewrite (pw_add_nonneg z (a - j) c), (pw_add_nonneg s (j + b) 1), (pw_add_nonneg s j b), (pw_add_nonneg (cos th) j 1), !pw_1 by lia.
    assert (F1 := zfact_neq0 j). assert (F2 := zfact_neq0 (a - j)). assert (F3 := zfact_neq0 c). assert (F4 := pw_neq0 (cos th) j Hc0). field. repeat split; assumption.
  - intros j Hj. rewrite RtoC_mult. apply is_int3_scal. assert (K := hole_term t r (Z.to_nat j) (Z.to_nat b) (j + b) (a - j + c) ltac:(lia) ltac:(lia)). exact K.
Qed.
Ltac hc := unfold mu_hole, hole_c, W2, zval; zc; cbv [rsum Z.to_nat Pos.to_nat Pos.iter_op Nat.add Init.Nat.add Z.of_nat Pos.of_succ_nat Pos.succ]; zc; cbv iota; cbv [TF SF]; rewrite ?sin_2PI, ?cos_2PI, ?sin_0, ?cos_0; cbn [INR]; rw_zf; rw_pw.
Lemma hole_volume t r T C_ : C_ <> 0%R -> mu_hole t r T C_ 0 0 0 = (PI * t * r ^ 2 / C_)%R.
Proof. intros. hc. field. assumption. Qed.
Lemma ach_platehole_body LMax rho t r th q : (0 <= LMax)%Z -> ach_platehole LMax rho t r th = Ok q ->
  deg q = LMax /\ density_moments every q rho (slanted_hole t r th).
Proof.
  intros HL E. unfold ach_platehole in E. destruct (_ || _)%bool eqn:G; [discriminate|]. destruct (is0 _) eqn:G0; [discriminate|]. apply Ok_inj in E. subst q.
  apply Bool.orb_false_elim in G. destruct G as [G G3]. apply Bool.orb_false_elim in G. destruct G as [G1 G2].
  apply rle_false in G1. apply rle_false in G2. apply rlt_false in G3. 
  assert (Hc : (0 < cos th)%R).
  { assert (B : (- (PI / 2) <= th <= PI / 2)%R) by (apply Rabs_le_between; assumption).
    assert (0 <= cos th)%R by (apply cos_ge_0; lra). destruct (Rle_lt_or_eq_dec _ _ H) as [|N]; [assumption|]. exfalso. unfold is0 in G0. destruct (Req_EM_T (cos th) 0); [discriminate|congruence]. }
  assert (Hc0 : cos th <> 0%R) by lra. split; [apply deg_ach|]. assert (HP := PI_RGT_0).
  set (V := (PI * t * r ^ 2 / cos th)%R). assert (HV : (0 < V)%R). { unfold V. apply Rdiv_lt_0_compat; [|assumption]. apply Rmult_lt_0_compat; [apply Rmult_lt_0_compat; lra|apply pow_lt; lra]. }
  apply (ach_body _ (mono_int (mu_hole t r (tan th) (cos th))) rho V); [assumption|reflexivity|apply regular_hole|lra| | |].
  - unfold V. rewrite <- (hole_volume t r (tan th)) by assumption. apply mono_000; [apply regular_hole|intros; now apply hole_mono].
  - intros l m Hm _ _. apply mono_solid; [apply regular_hole|intros; now apply hole_mono|assumption].
  - intros l m Hm Hl _. rewrite (Rabs_pos_eq V) by lra. replace (V / V)%R with 1%R by (field; lra). rewrite Rmult_1_r. clear V HV. revert l m Hm Hl.
    assert (Esq : sqrt (PI * (1 + tan th ^ 2)) = (sqrt PI / cos th)%R).
    { rewrite sqrt_mult_alt by lra. unfold Rdiv. f_equal. replace (1 + tan th ^ 2)%R with ((/ cos th) ^ 2)%R.
      - rewrite sqrt_pow2; [reflexivity|]. left. now apply Rinv_0_lt_compat.
      - unfold tan. assert (Hs := sin2_cos2 th). unfold Rsqr in Hs. replace (sin th * sin th)%R with (1 - cos th * cos th)%R in Hs by lra.
        transitivity ((cos th * cos th + sin th * sin th) / (cos th * cos th))%R; [|field; assumption]. assert (Hs' := sin2_cos2 th). unfold Rsqr in Hs'. rewrite Rplus_comm, Hs'. field. assumption. }
    assert (Et : (tan th * tan th * cos th * cos th = 1 - cos th * cos th)%R).
    { unfold tan. assert (Hs' := sin2_cos2 th). unfold Rsqr in Hs'. rewrite <- Hs'. field. assumption. }
    unfold ach_platehole_tab. rewrite Esq. set (T := tan th) in *. set (K := cos th) in *. clearbody T. clearbody K.
    apply lm_cases.
    all: ach_open; hc; apply C_eq; cbn [Cmult Cplus Cminus Copp Cdiv Cinv Ci RtoC fst snd Re Im]; sqsplit.
    all: try piz; field [s2s s3s s5s s7s s11s Et]; repeat split; ne0.
Qed.
