(* C59: translated outer moments converge to the outer moments of the moved body. *)
From Coq Require Import Reals Lia Lra List.
From Coquelicot Require Import Coquelicot.
From Verif Require Import Tri Solid Translations TranslationsProofs TranslationRecurs CDeriv Legendre Addition Newton Irreg Pg2Multi Pg2MultiProofs Props_Translations Props_TransRec Props_Torque.
From Verif Require Import SeriesSpec.
From Verif Require Import Cplx.
Import ListNotations.
Open Scope C_scope.

Lemma Cmod_lsum {A} (f : A -> C) (g : A -> R) (l : list A) : (forall x, In x l -> (Cmod (f x) <= g x)%R) -> (Cmod (lsum f l) <= lsr g l)%R.
Proof.
  induction l as [|x l IH]; intros H.
  - cbn. rewrite Cmod_0. lra.
  - change (lsum f (x :: l)) with (f x + lsum f l). change (lsr g (x :: l)) with (g x + lsr g l)%R.
    eapply Rle_trans; [apply Cmod_triangle|]. apply Rplus_le_compat; [apply H; now left|apply IH; intros y Hy; apply H; now right].
Qed.
Lemma lsum_minus {A} (f g : A -> C) l : lsum f l - lsum g l = lsum (fun x => f x - g x) l.
Proof. induction l as [|x l IH]; [cbn; ring|]. change (f x + lsum f l - (g x + lsum g l) = f x - g x + lsum (fun x => f x - g x) l). rewrite <- IH. ring. Qed.
Lemma lsr_scal {A} c (f : A -> R) l : lsr (fun x => c * f x)%R l = (c * lsr f l)%R.
Proof. induction l as [|x l IH]; cbn; [ring|]. unfold lsr in IH. rewrite IH. ring. Qed.
Lemma vadd_comm a b : vadd a b = vadd b a.
Proof. destruct a as [[? ?] ?], b as [[? ?] ?]. unfold vadd. apply v3; ring. Qed.
Lemma vnorm_ge0 v : (0 <= vnorm v)%R.
Proof. rewrite vnorm_vsq. apply sqrt_pos. Qed.
Lemma moved_pos t p : (vnorm (pp p) < vnorm t)%R \/ (vnorm t < vnorm (pp p))%R -> (0 < vnorm (vadd (pp p) t))%R.
Proof.
  intros [H|H].
  - rewrite vadd_comm, <- on_line_1. eapply Rlt_le_trans; [|apply dist_line; [lra|exact H]]. lra.
  - rewrite <- on_line_1. eapply Rlt_le_trans; [|apply dist_line; [lra|exact H]]. lra.
Qed.
Lemma outer_entry F L M : (0 <= L)%Z -> RtoC ((2 * IZR L + 1) / nrm L M) * (RtoC (/ (4 * PI)) * F) = RtoC (outer_norm L M) * F.
Proof.
  intros H. unfold outer_norm. assert (P := PI_RGT_0). assert (Hn := nrm_neq0 L M H).
  replace ((2 * IZR L + 1) / (4 * PI * nrm L M))%R with ((2 * IZR L + 1) / nrm L M * / (4 * PI))%R by (field; lra). rewrite RtoC_mult. ring.
Qed.
(* what translate_q2Q returns for the moments of a set of points *)
Lemma q2Q_of_points q P t L M Q : (0 <= deg q)%Z -> vnorm t <> 0%R -> holds q (inner_moment P) -> (Z.abs M <= L <= deg q)%Z -> translate_q2Q q t = Ok Q ->
  mom Q L M = RtoC (outer_norm L M) * lsum (fun p => RtoC (pm p) * zsum 0 (deg q + 1) (fun n => sgnC n * DK L M n (pp p) t)) P.
Proof.
  intros Hd Ht Hq HL E. destruct (translate_q2Q_holds q t Hd Ht) as (Q' & E' & D & [H _]). rewrite E in E'. injection E' as <-.
  rewrite H by lia. rewrite <- outer_entry by lia. f_equal. unfold Tq2Q.
  assert (Hv : (0 < vnorm t)%R) by (assert (G := vnorm_ge0 t); lra).
  rewrite (zsum_ext _ _ _ (fun n => lsum (fun p => RtoC (/ (4 * PI)) * (RtoC (pm p) * (sgnC n * DK L M n (pp p) t))) P)).
  - rewrite <- lsum_scal. rewrite <- lsum_zsum. apply lsum_ext. intros p Hp. now rewrite !zsum_scal_l.
  - intros n Hn. rewrite (zsum_ext _ _ _ (fun m => lsum (fun p => RtoC (/ (4 * PI)) * (RtoC (pm p) * (sgnC n * (S_ n m (pp p) * K_ (L + n) (M + m) t)))) P)).
    + rewrite <- lsum_zsum. apply lsum_ext. intros p Hp. unfold DK. now rewrite !zsum_scal_l.
    + intros m Hm. rewrite (hq_points q P) by (assumption || lia). rewrite I_K by (lia || assumption).
      transitivity ((sgnC n * (RtoC (/ (4 * PI)) * K_ (L + n) (M + m) t)) * lsum (fun p => RtoC (pm p) * S_ n m (pp p)) P); [ring|].
      rewrite <- lsum_scal. apply lsum_ext. intros p Hp. ring.
Qed.
Lemma outer_of_points P t L M : (Z.abs M <= L)%Z -> (forall p, In p P -> (0 < vnorm (vadd (pp p) t))%R) ->
  outer_moment (map (moved t) P) L M = RtoC (outer_norm L M) * lsum (fun p => RtoC (pm p) * K_ L M (vadd (pp p) t)) P.
Proof.
  intros HM H. unfold outer_moment. rewrite lsum_map, <- lsum_scal. apply lsum_ext. intros p Hp. cbn [moved pm pp]. rewrite isolid_K by (assumption || now apply H). ring.
Qed.
Lemma Rle_scal_Cmod (c : R) (z : C) (b : R) : (0 <= c)%R -> (Cmod z <= b)%R -> (Cmod (RtoC c * z)%C <= c * b)%R.
Proof. intros Hc H. rewrite Cmod_mult, Cmod_R, Rabs_pos_eq by exact Hc. now apply Rmult_le_compat_l. Qed.
Lemma Cmod_mass (x : R) (z : C) b : (Cmod z <= b)%R -> (Cmod (RtoC x * z)%C <= Rabs x * b)%R.
Proof. intros H. rewrite Cmod_mult, Cmod_R. apply Rmult_le_compat_l; [apply Rabs_pos|exact H]. Qed.

(* ---- the truncation errors ---- *)
Theorem C59_q2Q_truncation_error : forall q P t L M Q, (0 <= deg q)%Z -> holds q (inner_moment P) ->
  (0 < vnorm t)%R -> (forall p, In p P -> (vnorm (pp p) < vnorm t)%R) -> (Z.abs M <= L <= deg q)%Z -> translate_q2Q q t = Ok Q ->
  (Cmod (mom Q L M - outer_moment (map (moved t) P) L M)%C <=
   outer_norm L M * lsr (fun p => Rabs (pm p) * err_bound L (vnorm (pp p)) (vnorm t) (Z.to_nat (deg q))) P)%R.
Proof.
  intros q P t L M Q Hd Hq Ht HP HL E. rewrite (q2Q_of_points q P t L M Q) by (assumption || lra).
  rewrite outer_of_points by (try lia; intros p Hp; apply moved_pos; left; now apply HP).
  match goal with |- (Cmod (?c * ?x - ?c * ?y)%C <= _)%R => replace (c * x - c * y) with (c * (x - y)) by ring end.
  apply Rle_scal_Cmod; [apply Rlt_le, outer_norm_pos; lia|]. rewrite lsum_minus. apply Cmod_lsum. intros p Hp.
  match goal with |- (Cmod (?c * ?x - ?c * ?y)%C <= _)%R => replace (c * x - c * y) with (c * (x - y)) by ring end.
  apply Cmod_mass. rewrite <- Cmod_opp. rewrite Copp_minus_distr, vadd_comm.
  assert (T := taylor_K L M t (pp p) (Z.to_nat (deg q)) ltac:(lia) (HP p Hp)). rewrite Z2Nat.id in T by lia. exact T.
Qed.
Theorem C59_Qlmb_truncation_error : forall Q P t L M, (0 <= deg Q)%Z -> holds Q (outer_moment P) ->
  (forall p, In p P -> (vnorm t < vnorm (pp p))%R) -> (Z.abs M <= L <= deg Q)%Z ->
  (Cmod (mom (translate_Qlmb Q t) L M - outer_moment (map (moved t) P) L M)%C <=
   outer_norm L M * lsr (fun p => Rabs (pm p) * err_bound L (vnorm t) (vnorm (pp p)) (Z.to_nat (deg Q - L))) P)%R.
Proof.
  intros Q P t L M Hd HQ HP HL. destruct (translate_Qlmb_holds Q t Hd (reality_outer Q P HQ) (proj2 HQ)) as [D [H _]].
  rewrite H by (rewrite ?D; lia). rewrite outer_of_points by (try lia; intros p Hp; apply moved_pos; right; now apply HP).
  assert (Hs : forall p, In p P -> (0 < vnorm (pp p))%R) by (intros p Hp; assert (A := HP p Hp); assert (B := vnorm_ge0 t); lra).
  replace (Tout (deg Q) (hQ Q) t L M) with (RtoC (/ (4 * PI)) * lsum (fun p => RtoC (pm p) * zsum 0 (deg Q - L + 1) (fun n => sgnC n * DK L M n t (pp p))) P).
  - rewrite outer_entry by lia.
    match goal with |- (Cmod (?c * ?x - ?c * ?y)%C <= _)%R => replace (c * x - c * y) with (c * (x - y)) by ring end.
    apply Rle_scal_Cmod; [apply Rlt_le, outer_norm_pos; lia|]. rewrite lsum_minus. apply Cmod_lsum. intros p Hp.
    match goal with |- (Cmod (?c * ?x - ?c * ?y)%C <= _)%R => replace (c * x - c * y) with (c * (x - y)) by ring end.
    apply Cmod_mass. rewrite <- Cmod_opp. rewrite Copp_minus_distr.
    assert (T := taylor_K L M (pp p) t (Z.to_nat (deg Q - L)) ltac:(lia) (HP p Hp)). rewrite Z2Nat.id in T by lia. exact T.
  - unfold Tout. rewrite (zsum_sub 0 (deg Q + 1) L (deg Q + 1)) by (lia || (intros k H1 H2; apply zsum_0; intros; rewrite S_neg by lia; ring)).
    rewrite (zsum_shift (- L)). replace (L + - L)%Z with 0%Z by ring. replace (deg Q + 1 + - L)%Z with (deg Q - L + 1)%Z by ring.
    rewrite (zsum_ext 0 _ (fun k => zsum (- deg Q) _ _) (fun n => lsum (fun p => RtoC (/ (4 * PI)) * (RtoC (pm p) * (sgnC n * DK L M n t (pp p)))) P)).
    + rewrite <- lsum_scal, <- lsum_zsum. apply lsum_ext. intros p Hp. now rewrite !zsum_scal_l.
    + intros n Hn. replace (n - - L - L)%Z with n by ring. replace (n - - L)%Z with (L + n)%Z by ring.
      rewrite (zsum_sub (- deg Q) (deg Q + 1) (- n + M) (n + 1 + M)) by (lia || (intros k H1 H2; rewrite S_zero by lia; ring)).
      rewrite (zsum_shift (- M)). replace (- n + M + - M)%Z with (- n)%Z by ring. replace (n + 1 + M + - M)%Z with (n + 1)%Z by ring.
      rewrite (zsum_ext (- n) _ _ (fun m => lsum (fun p => RtoC (/ (4 * PI)) * (RtoC (pm p) * (sgnC n * (S_ n m t * K_ (L + n) (M + m) (pp p))))) P)).
      * rewrite <- lsum_zsum. apply lsum_ext. intros p Hp. unfold DK. now rewrite !zsum_scal_l.
      * intros m Hm. replace (m - - M - M)%Z with m by ring. replace (m - - M)%Z with (M + m)%Z by ring. rewrite S_opp.
        replace (hQ Q (L + n) (M + m)) with (lsum (fun p => RtoC (pm p) * (RtoC (/ (4 * PI)) * K_ (L + n) (M + m) (pp p))) P).
        { rewrite <- lsum_scal. apply lsum_ext. intros p Hp. ring. }
        unfold hQ. rewrite (proj2 (Z.leb_le _ _)) by lia. rewrite (proj1 HQ) by lia. unfold outer_moment. rewrite <- lsum_scal_r. apply lsum_ext. intros p Hp.
        rewrite <- I_K by (lia || now apply Hs). unfold I_, hatQ. ring.
Qed.

(* ---- the limits ---- *)
Lemma lsr_lim (P : list pt) (f : pt -> nat -> R) : (forall p, In p P -> is_lim_seq (f p) 0%R) -> is_lim_seq (fun N => lsr (fun p => Rabs (pm p) * f p N)%R P) 0%R.
Proof.
  induction P as [|p P IH]; intros H; [apply is_lim_seq_const|].
  replace 0%R with (Rabs (pm p) * 0 + 0)%R by ring. apply (is_lim_seq_plus' (fun N => Rabs (pm p) * f p N)%R).
  - apply (is_lim_seq_scal_l (f p) (Rabs (pm p)) 0%R). apply H. now left.
  - apply IH. intros x Hx. apply H. now right.
Qed.
Lemma lim_eps (c : R) (u : nat -> R) (e : R) : is_lim_seq u 0%R -> (0 < e)%R -> exists N, forall n, (N <= n)%nat -> (c * u n < e)%R.
Proof.
  intros H He. assert (H' : is_lim_seq (fun n => c * u n)%R 0%R) by (replace 0%R with (c * 0)%R by ring; apply (is_lim_seq_scal_l u c 0%R), H).
  apply is_lim_seq_spec in H'. destruct (H' (mkposreal e He)) as [N HN]. exists N. intros n Hn. specialize (HN n Hn). cbn in HN.
  rewrite Rminus_0_r in HN. eapply Rle_lt_trans; [apply Rle_abs|exact HN].
Qed.
Theorem C59_q2Q_limit : forall P t L M eps, (0 < vnorm t)%R -> (forall p, In p P -> (vnorm (pp p) < vnorm t)%R) -> (Z.abs M <= L)%Z -> (0 < eps)%R ->
  exists D, (L <= D)%Z /\ forall q, (D <= deg q)%Z -> holds q (inner_moment P) ->
  exists Q, translate_q2Q q t = Ok Q /\ deg Q = deg q /\ (Cmod (mom Q L M - outer_moment (map (moved t) P) L M)%C < eps)%R.
Proof.
  intros P t L M eps Ht HP HM He.
  destruct (lim_eps (outer_norm L M) (fun N => lsr (fun p => Rabs (pm p) * err_bound L (vnorm (pp p)) (vnorm t) N)%R P) eps) as [N HN].
  - apply (lsr_lim P (fun p => err_bound L (vnorm (pp p)) (vnorm t))). intros p Hp. apply err_bound_lim; [lia|]. split; [apply vnorm_ge0|now apply HP].
  - exact He.
  - exists (Z.max L (Z.of_nat N)). split; [lia|]. intros q Hq H. destruct (translate_q2Q_holds q t ltac:(lia) ltac:(lra)) as (Q & E & D & _). exists Q. split; [exact E|]. split; [exact D|].
    eapply Rle_lt_trans; [apply (C59_q2Q_truncation_error q P t L M Q); [lia|exact H|exact Ht|exact HP|lia|exact E]|]. apply HN. lia.
Qed.
Theorem C59_Qlmb_limit : forall P t L M eps, (forall p, In p P -> (vnorm t < vnorm (pp p))%R) -> (Z.abs M <= L)%Z -> (0 < eps)%R ->
  exists D, (L <= D)%Z /\ forall Q, (D <= deg Q)%Z -> holds Q (outer_moment P) ->
  (Cmod (mom (translate_Qlmb Q t) L M - outer_moment (map (moved t) P) L M)%C < eps)%R.
Proof.
  intros P t L M eps HP HM He.
  destruct (lim_eps (outer_norm L M) (fun N => lsr (fun p => Rabs (pm p) * err_bound L (vnorm t) (vnorm (pp p)) N)%R P) eps) as [N HN].
  - apply (lsr_lim P (fun p => err_bound L (vnorm t) (vnorm (pp p)))). intros p Hp. apply err_bound_lim; [lia|]. split; [apply vnorm_ge0|now apply HP].
  - exact He.
  - exists (L + Z.of_nat N)%Z. split; [lia|]. intros Q HQ H.
    eapply Rle_lt_trans; [apply (C59_Qlmb_truncation_error Q P t L M); [lia|exact H|exact HP|lia]|]. apply HN. lia.
Qed.
(* the same for the recursive module *)
Theorem C59_recursive_q2Q_limit : forall P t L M eps, (0 < vnorm t)%R -> (forall p, In p P -> (vnorm (pp p) < vnorm t)%R) -> (Z.abs M <= L)%Z -> (0 < eps)%R ->
  exists D, (L <= D)%Z /\ forall q, (D <= deg q)%Z -> holds q (inner_moment P) ->
  exists Q, rec_translate_q2Q q t = Ok Q /\ deg Q = deg q /\ (Cmod (mom Q L M - outer_moment (map (moved t) P) L M)%C < eps)%R.
Proof.
  intros P t L M eps Ht HP HM He. destruct (C59_q2Q_limit P t L M eps Ht HP HM He) as (D & HD & H). exists (Z.max D 1). split; [lia|].
  intros q Hq Hh. destruct (H q ltac:(lia) Hh) as (Q & E & Dg & B). destruct (C21_recursive_equals_clebsch_gordan q t ltac:(lia) ltac:(lra) ltac:(left; lia)) as (Q1 & Q2 & E1 & E2 & [S1 S2]).
  rewrite E in E1. injection E1 as <-. exists Q2. split; [exact E2|]. split; [congruence|]. rewrite S2 by lia. exact B.
Qed.
Theorem C59_recursive_Qlmb_limit : forall P t L M eps, (forall p, In p P -> (vnorm t < vnorm (pp p))%R) -> (Z.abs M <= L)%Z -> (0 < eps)%R ->
  exists D, (L <= D)%Z /\ forall Q, (D <= deg Q)%Z -> holds Q (outer_moment P) ->
  exists Q', rec_translate_Qlmb Q t = Ok Q' /\ deg Q' = deg Q /\ (Cmod (mom Q' L M - outer_moment (map (moved t) P) L M)%C < eps)%R.
Proof.
  intros P t L M eps HP HM He. destruct (C59_Qlmb_limit P t L M eps HP HM He) as (D & HD & H). exists (Z.max D 1). split; [lia|].
  intros Q HQ Hh. destruct (C20_recursive_equals_clebsch_gordan Q t ltac:(lia) (reality_outer Q P Hh) (proj2 Hh) ltac:(left; lia)) as (Q' & E & [S1 S2]).
  destruct (translate_Qlmb_holds Q t ltac:(lia) (reality_outer Q P Hh) (proj2 Hh)) as [Dg _].
  exists Q'. split; [exact E|]. split; [congruence|]. rewrite S2 by lia. apply H; [lia|exact Hh].
Qed.
(* end to end, from the point arrays: moments computed by qmoments and Qmomentsb *)
Theorem C59_qmoments_q2Q : forall P t L M eps, (0 < vnorm t)%R -> (forall p, In p P -> (vnorm (pp p) < vnorm t)%R) -> ~ origin_before_other P -> (Z.abs M <= L)%Z -> (0 < eps)%R ->
  exists D, forall N, (D <= N)%Z -> exists q Q, qmoments N P = Ok q /\ translate_q2Q q t = Ok Q /\
  (Cmod (mom Q L M - mom (Qmomentsb N (map (moved t) P)) L M)%C < eps)%R.
Proof.
  intros P t L M eps Ht HP Ho HM He. destruct (C59_q2Q_limit P t L M eps Ht HP HM He) as (D & HD & H). exists D. intros N HN.
  destruct (qmoments_good N P ltac:(lia) Ho) as (q & E & Dq & Hq). destruct (H q ltac:(lia) Hq) as (Q & E2 & _ & B). exists q, Q. split; [exact E|]. split; [exact E2|].
  destruct (Qmomentsb_good N (map (moved t) P) ltac:(lia)) as [D2 [H2 _]].
  - intros p Hp. apply in_map_iff in Hp. destruct Hp as (x & <- & Hx). assert (A := moved_pos t x (or_introl (HP x Hx))). intros Ho'. unfold at_origin in Ho'. cbn [moved pp] in Ho'. rewrite Ho', vnorm_v0 in A. lra.
  - rewrite H2 by lia. exact B.
Qed.
Example C59_case : exists q Q, holds q (inner_moment [mkpt 7 (1, 0, 2)%R; mkpt (-1) (0, 1, 0)%R]) /\ deg q = 5%Z /\ translate_q2Q q (3, 0, 4)%R = Ok Q /\
  (0 < vnorm (3, 0, 4)%R)%R /\ forall p, In p [mkpt 7 (1, 0, 2)%R; mkpt (-1) (0, 1, 0)%R] -> (vnorm (pp p) < vnorm (3, 0, 4)%R)%R.
Proof.
  destruct (qmoments_good 5 [mkpt 7 (1, 0, 2)%R; mkpt (-1) (0, 1, 0)%R] ltac:(lia)) as (q & E & D & H).
  { intros (l1 & p & l2 & r & l3 & E & Hp & Hr). unfold at_origin in Hp. assert (Hi : In p [mkpt 7 (1, 0, 2)%R; mkpt (-1) (0, 1, 0)%R]) by (rewrite E; apply in_elt).
    destruct Hi as [<-|[<-|[]]]; cbn in Hp; injection Hp; intros; lra. }
  assert (E5 : vnorm (3, 0, 4)%R = 5%R). { unfold vnorm. replace (3 ^ 2 + 0 ^ 2 + 4 ^ 2)%R with (5 * 5)%R by ring. apply sqrt_square. lra. }
  destruct (translate_q2Q_holds q (3, 0, 4)%R ltac:(lia) ltac:(rewrite E5; lra)) as (Q & EQ & _). exists q, Q. split; [exact H|]. split; [exact D|]. split; [exact EQ|].
  rewrite E5. split; [lra|]. intros p [<-|[<-|[]]]; cbn [pp]; rewrite <- (sqrt_square 5) by lra; unfold vnorm; apply sqrt_lt_1; lra.
Qed.
Print Assumptions C59_q2Q_truncation_error.
Print Assumptions C59_Qlmb_truncation_error.
Print Assumptions C59_q2Q_limit.
Print Assumptions C59_Qlmb_limit.
Print Assumptions C59_qmoments_q2Q.
Print Assumptions C59_recursive_q2Q_limit.
Print Assumptions C59_recursive_Qlmb_limit.
