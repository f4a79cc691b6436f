(* Sharp truncation errors of one pair of points seen from two centres. *)
From Coq Require Import Reals Lia Lra.
From Coquelicot Require Import Coquelicot.
From Verif Require Import TransRecProofs RotSpec RotationsProofs2 Tri Solid TranslationsProofs CDeriv Legendre Addition Newton CGOrth ClebschGordanProofs Irreg Irreg2 Props_Series Props_Series2 Irreg3 Props_Rate.
From Verif Require Import Cplx.
Open Scope R_scope.

Lemma le_eps x y : (forall e, 0 < e -> x <= y + e) -> x <= y.
Proof. intros H. apply le_epsilon. exact H. Qed.
Lemma ratio_pow r t j k : 0 < t -> (r / t) ^ j / t ^ k = r ^ j / t ^ (j + k).
Proof. intros H. unfold Rdiv. rewrite Rpow_mult_distr, pow_inv, pow_add. field. split; apply pow_nonzero; lra. Qed.
Lemma sgn_f n (z : C) : Cmod (sgnC n * z)%C = Cmod z.
Proof. rewrite Cmod_mult, Cmod_sgnC. ring. Qed.
Lemma square_energy N a b t : (0 <= N)%Z -> vnorm a + vnorm b < vnorm t ->
  Cmod (Sq 0 0 N N a b t - RtoC (/ vnorm (vadd t (vadd a b))))%C <= ((vnorm a + vnorm b) / vnorm t) ^ S (Z.to_nat N) / (vnorm t - (vnorm a + vnorm b)).
Proof.
  intros HN H. assert (Ha := vnorm_ge0 a). assert (Hb := vnorm_ge0 b). assert (Ht : 0 < vnorm t) by lra. set (r := vnorm a + vnorm b) in *. set (th := r / vnorm t).
  assert (Hth : 0 <= th < 1) by (apply ratio_lt; split; unfold r in *; lra).
  apply le_eps. intros e He.
  assert (PL := pair_err_lim 0 (vopp a) b t ltac:(lia)). rewrite vnorm_opp in PL. specialize (PL H).
  destruct (lim_eps 1 (pair_err 0 (vopp a) b t) e PL He) as [n0 Hn]. set (n := (n0 + Z.to_nat N)%nat). specialize (Hn n ltac:(lia)). rewrite Rmult_1_l in Hn.
  assert (B := double_K 0 0 t a b n (Z.of_nat n) (Z.of_nat n) ltac:(lia) H ltac:(lia) ltac:(lia)).
  unfold pair_err in Hn. replace (vopp (vopp a)) with a in Hn by (destruct a as [[? ?] ?]; unfold vopp; apply v3; ring). rewrite vnorm_opp in Hn.
  rewrite K_00 in B. set (X := RtoC (/ vnorm (vadd t (vadd a b)))) in *.
  assert (T := square_tail (fun l k => sgnC (l + k) * TT 0 0 l k a b t)%C (fun j => / vnorm t ^ Z.to_nat (j + 1)) (vnorm a) (vnorm b) N N N (Z.of_nat n) Ha Hb ltac:(lia)).
  specialize (T ltac:(intros; apply Rlt_le, Rinv_0_lt_compat, pow_lt; lra)).
  specialize (T ltac:(intros l k Hl Hk; cbv beta; rewrite sgn_f; rewrite Rmult_comm; apply TT_sharp; (lia || exact Ht)) ltac:(lia) ltac:(lia)).
  fold r in T. rewrite (rsum_ext _ _ _ (fun j => / vnorm t * th ^ Z.to_nat j)) in T.
  2:{ intros j Hj. unfold th. replace (Z.to_nat (j + 1)) with (Z.to_nat j + 1)%nat by lia. assert (E := ratio_pow r (vnorm t) (Z.to_nat j) 1 ltac:(lra)). rewrite pow_1 in E. unfold Rdiv in *. rewrite Rmult_comm, <- E. ring. }
  change (Cmod (Sq 0 0 (Z.of_nat n) (Z.of_nat n) a b t - Sq 0 0 N N a b t)%C <= rsum (N + 1) (2 * Z.of_nat n + 1) (fun j => / vnorm t * th ^ Z.to_nat j)) in T.
  rewrite rsum_scal_l in T. replace (N + 1)%Z with (Z.of_nat (S (Z.to_nat N))) in T by lia.
  assert (G := geo_tail th (S (Z.to_nat N)) (2 * Z.of_nat n + 1) Hth).
  assert (G' : / vnorm t * rsum (Z.of_nat (S (Z.to_nat N))) (2 * Z.of_nat n + 1) (fun j => th ^ Z.to_nat j) <= th ^ S (Z.to_nat N) / (vnorm t - r)).
  { eapply Rle_trans; [apply Rmult_le_compat_l; [apply Rlt_le, Rinv_0_lt_compat; lra|exact G]|]. apply Req_le. generalize (S (Z.to_nat N)) as k. intros k. unfold th at 2. 
    assert (vnorm t - r <> 0) by (apply Rgt_not_eq; lra). assert (vnorm t <> 0) by (apply Rgt_not_eq; lra). assert (1 - r / vnorm t <> 0) by (change (1 - th <> 0); apply Rgt_not_eq; lra). set (w := th ^ k). field. repeat split; try assumption; change (r / vnorm t) with th in *; apply Rgt_not_eq; lra. }
  match goal with |- Cmod (?s - X)%C <= _ => replace (s - X)%C with ((Sq 0 0 (Z.of_nat n) (Z.of_nat n) a b t - X) + - (Sq 0 0 (Z.of_nat n) (Z.of_nat n) a b t - s))%C by ring end.
  eapply Rle_trans; [apply Cmod_triangle|]. rewrite Cmod_opp. lra.
Qed.
Lemma en_rate N p s t : (0 <= N)%Z -> vnorm p + vnorm s < vnorm t ->
  Cmod (en N p s t - RtoC (/ vnorm (vsub (vadd s t) p)))%C <= ((vnorm p + vnorm s) / vnorm t) ^ S (Z.to_nat N) / (vnorm t - (vnorm p + vnorm s)).
Proof.
  intros HN H. unfold en. rewrite <- vsub_as.
  rewrite (zsum_ext 0 _ _ (fun l => zsum (- l) (l + 1) (fun m => S_ l m p * Hs N (0 + l) (0 + m) s t)%C)) by (intros l Hl; apply zsum_ext; intros m Hm; now rewrite !Z.add_0_l).
  rewrite Sq_Hs. assert (B := square_energy N (vopp p) s t HN). rewrite vnorm_opp in B. exact (B H).
Qed.
Definition Sqe (e : vec) (N1 N2 : Z) (a b t : vec) : C := (Av e * Sq 1 1 N1 N2 a b t + zv e * Sq 1 0 N1 N2 a b t + Bv e * Sq 1 (-1) N1 N2 a b t)%C.
Lemma Sqe_sum e N1 N2 a b t : Sqe e N1 N2 a b t = zsum 0 (N1 + 1) (fun l => zsum 0 (N2 + 1) (fun n => sgnC (l + n) * TTe e l n a b t)%C).
Proof.
  unfold Sqe, Sq, TTe. rewrite <- !zsum_scal_l, <- !zsum_plus. apply zsum_ext. intros l _. rewrite <- !zsum_scal_l, <- !zsum_plus. apply zsum_ext. intros n _. ring.
Qed.
Lemma square_force e N a b t : (1 <= N)%Z -> vnorm a + vnorm b < vnorm t ->
  Cmod (Sqe e (N - 1) N a b t - RtoC (vdot e (vadd t (vadd a b)) / vnorm (vadd t (vadd a b)) ^ 3))%C <= vnorm e * force_tail (Z.to_nat N) (vnorm a + vnorm b) (vnorm t).
Proof.
  intros HN H. assert (Ha := vnorm_ge0 a). assert (Hb := vnorm_ge0 b). assert (Ht : 0 < vnorm t) by lra. set (r := vnorm a + vnorm b) in *. set (th := r / vnorm t).
  assert (Hth : 0 <= th < 1) by (apply ratio_lt; split; unfold r in *; lra). assert (Hve := vnorm_ge0 e).
  apply le_eps. intros eps He. set (k0 := Cmod (Av e) + Cmod (zv e) + Cmod (Bv e)).
  assert (PL := pair_err_lim 1 (vopp a) b t ltac:(lia)). rewrite vnorm_opp in PL. specialize (PL H).
  destruct (lim_eps k0 (pair_err 1 (vopp a) b t) eps PL He) as [n0 Hn]. set (n := (n0 + Z.to_nat N)%nat). specialize (Hn n ltac:(lia)).
  assert (B : Cmod (Sqe e (Z.of_nat n) (Z.of_nat n) a b t - RtoC (vdot e (vadd t (vadd a b)) / vnorm (vadd t (vadd a b)) ^ 3))%C <= k0 * pair_err 1 (vopp a) b t n).
  { assert (FP := far_pos (vopp a) b t). rewrite vnorm_opp in FP. specialize (FP H). rewrite <- vsub_as in FP. replace (vopp (vopp a)) with a in FP by (destruct a as [[? ?] ?]; unfold vopp; apply v3; ring).
    rewrite <- K_1 by exact FP.
    assert (D : forall d, (Z.abs d <= 1)%Z -> Cmod (Sq 1 d (Z.of_nat n) (Z.of_nat n) a b t - K_ 1 d (vadd t (vadd a b)))%C <= pair_err 1 (vopp a) b t n).
    { intros d Hd. unfold pair_err. replace (vopp (vopp a)) with a by (destruct a as [[? ?] ?]; unfold vopp; apply v3; ring). rewrite vnorm_opp. apply double_K; [exact Hd|exact H|lia|lia]. }
    assert (D1 := D 1%Z ltac:(lia)). assert (D0 := D 0%Z ltac:(lia)). assert (Dm := D (-1)%Z ltac:(lia)). clear D. unfold Sqe.
    set (V := vadd t (vadd a b)) in *. set (q1 := Sq 1 1 _ _ _ _ _) in *. set (q0 := Sq 1 0 _ _ _ _ _) in *. set (qm := Sq 1 (-1) _ _ _ _ _) in *.
    replace (Av e * q1 + zv e * q0 + Bv e * qm - (Av e * K_ 1 1 V + zv e * K_ 1 0 V + Bv e * K_ 1 (-1) V))%C with (Av e * (q1 - K_ 1 1 V) + zv e * (q0 - K_ 1 0 V) + Bv e * (qm - K_ 1 (-1) V))%C by ring.
    eapply Rle_trans; [apply Cmod_triangle|]. eapply Rle_trans; [apply Rplus_le_compat_r, Cmod_triangle|]. unfold k0. rewrite !Cmod_mult, !Rmult_plus_distr_r.
    apply Rplus_le_compat; [apply Rplus_le_compat|]; apply Rmult_le_compat_l; (apply Cmod_ge_0 || assumption). }
  set (X := RtoC (vdot e (vadd t (vadd a b)) / vnorm (vadd t (vadd a b)) ^ 3)) in *.
  assert (T := square_tail (fun l k => sgnC (l + k) * TTe e l k a b t)%C (fun j => vnorm e * IZR (j + 1) / vnorm t ^ Z.to_nat (j + 2)) (vnorm a) (vnorm b) (N - 1) (N - 1) N (Z.of_nat n) Ha Hb ltac:(lia)).
  specialize (T ltac:(intros; apply Rdiv_le_0_compat; [apply Rmult_le_pos; [exact Hve|apply (IZR_le 0); lia]|apply pow_lt; lra])).
  specialize (T ltac:(intros l k Hl Hk; cbv beta; rewrite sgn_f; eapply Rle_trans; [apply TTe_sharp; (lia || exact Ht)|apply Req_le; unfold Rdiv; ring]) ltac:(lia) ltac:(lia)).
  fold r in T. rewrite (rsum_ext _ _ _ (fun j => (vnorm e / vnorm t ^ 2) * (IZR (j + 1) * th ^ Z.to_nat j))) in T.
  2:{ intros j Hj. unfold th. replace (Z.to_nat (j + 2)) with (Z.to_nat j + 2)%nat by lia. assert (E := ratio_pow r (vnorm t) (Z.to_nat j) 2 ltac:(lra)). unfold Rdiv in *.
      replace (vnorm e * IZR (j + 1) * / vnorm t ^ (Z.to_nat j + 2) * r ^ Z.to_nat j) with (vnorm e * IZR (j + 1) * (r ^ Z.to_nat j * / vnorm t ^ (Z.to_nat j + 2))) by ring. rewrite <- E. ring. }
  match type of T with (Cmod (?x - ?y)%C <= _) => replace x with (Sqe e (Z.of_nat n) (Z.of_nat n) a b t) in T by (apply Sqe_sum); replace y with (Sqe e (N - 1) N a b t) in T by (apply Sqe_sum) end.
  rewrite rsum_scal_l in T. replace (N - 1 + 1)%Z with (Z.of_nat (Z.to_nat N)) in T by lia.
  assert (G := lin_tail th (Z.to_nat N) (2 * Z.of_nat n + 1) Hth).
  assert (G' : vnorm e / vnorm t ^ 2 * rsum (Z.of_nat (Z.to_nat N)) (2 * Z.of_nat n + 1) (fun j => IZR (j + 1) * th ^ Z.to_nat j) <= vnorm e * force_tail (Z.to_nat N) r (vnorm t)).
  { eapply Rle_trans; [apply Rmult_le_compat_l; [apply Rdiv_le_0_compat; [exact Hve|apply pow_lt; lra]|exact G]|]. apply Req_le. unfold gsum, force_tail. fold th. set (w := th ^ Z.to_nat N). unfold th.
    assert (vnorm t - r <> 0) by (apply Rgt_not_eq; lra). assert (vnorm t <> 0) by (apply Rgt_not_eq; lra). assert (1 - r / vnorm t <> 0) by (change (1 - th <> 0); apply Rgt_not_eq; lra). field. repeat split; try assumption; change (r / vnorm t) with th in *; apply Rgt_not_eq; lra. }
  match goal with |- Cmod (?s - X)%C <= _ => replace (s - X)%C with ((Sqe e (Z.of_nat n) (Z.of_nat n) a b t - X) + - (Sqe e (Z.of_nat n) (Z.of_nat n) a b t - s))%C by ring end.
  eapply Rle_trans; [apply Cmod_triangle|]. rewrite Cmod_opp. lra.
Qed.
Lemma den_rate N e p s t : (1 <= N)%Z -> vnorm p + vnorm s < vnorm t ->
  Cmod (den N e p s t - RtoC (vdot e (vsub (vadd s t) p) / vnorm (vsub (vadd s t) p) ^ 3))%C <= vnorm e * force_tail (Z.to_nat N) (vnorm p + vnorm s) (vnorm t).
Proof.
  intros HN H. rewrite <- vsub_as. assert (B := square_force e N (vopp p) s t HN). rewrite vnorm_opp in B. exact (B H).
Qed.
