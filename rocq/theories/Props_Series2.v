(* C60: two bodies, each described by inner moments about its own centre: translate_q2Q and the multipole
   energy, force and torque tend to Newton's as the degree grows. *)
From Coq Require Import Reals Lra Lia ZArith List.
From Coquelicot Require Import Coquelicot.
From Verif Require Import Props_Glib Props_Moments Props_Multipole Props_Torque Addition Legendre TransRecProofs RotationsProofs2 RotSpec Rotations TransSpec GlibProofs GlibProofs2 NewtonSpec Newton CDeriv MultipoleLib MultipoleProofs MultipoleProofs2.
From Verif Require Import Tri Solid Translations TranslationsProofs Pg2Multi Pg2MultiProofs Props_Translations Props_Rotations Props_Newton Rotor Irreg Irreg2 Props_Series.
From Verif Require Import SeriesSpec.
From Verif Require Import Cplx.
Import ListNotations.
Open Scope C_scope.

(* ---- specification: the centres are farther apart than the bodies reach ---- *)
Definition separate (P S : list pt) (t : vec) : Prop := (0 < vnorm t)%R /\ forall p s, In p P -> In s S -> (vnorm (pp p) + vnorm (pp s) < vnorm t)%R.

(* field of a source point s about t, cut off at degree N *)
Definition Hs (N l m : Z) (s t : vec) : C := zsum 0 (N + 1) (fun n => sgnC n * DK l m n s t).
Lemma Sq_Hs L M N1 N2 p s t : zsum 0 (N1 + 1) (fun l => zsum (- l) (l + 1) (fun m => S_ l m p * Hs N2 (L + l) (M + m) s t)) = Sq L M N1 N2 (vopp p) s t.
Proof.
  unfold Sq, Hs. apply zsum_ext. intros l Hl.
  rewrite (zsum_ext (- l) _ _ (fun m => zsum 0 (N2 + 1) (fun n => S_ l m p * (sgnC n * DK (L + l) (M + m) n s t)))) by (intros m Hm; now rewrite zsum_scal_l).
  rewrite zsum_swap. apply zsum_ext. intros n Hn. unfold TT, DK. rewrite <- zsum_scal_l. apply zsum_ext. intros m Hm.
  rewrite <- !zsum_scal_l. apply zsum_ext. intros k Hk. rewrite S_opp, sgnC_add.
  transitivity ((sgnC l * sgnC l) * (S_ l m p * (sgnC n * (S_ n k s * K_ (L + l + n) (M + m + k) t)))); [rewrite sgnC_sq; ring|ring].
Qed.
Lemma K_00 v : K_ 0 0 v = RtoC (/ vnorm v).
Proof.
  unfold K_, U_. change (- 0)%Z with 0%Z. rewrite S_tri, tri_0_0. change (Z.to_nat (2 * 0 + 1)) with 1%nat. rewrite pow_1.
  replace (wfac 0 0) with 1%R by (unfold wfac; cbn; ring). rewrite sgnC_0. ring.
Qed.
Lemma K_1 V e : (0 < vnorm V)%R -> Av e * K_ 1 1 V + zv e * K_ 1 0 V + Bv e * K_ 1 (-1) V = RtoC (vdot e V / vnorm V ^ 3).
Proof.
  intros H. assert (Hr : (0 < vnorm (on_line V e 0))%R) by (now rewrite on_line_0).
  assert (D1 := cder_K 0 0 V e 0 ltac:(lia) Hr). assert (D2 := cder_RtoC _ _ _ (der_inv_norm V e 0 1 Hr)). rewrite on_line_0 in D1, D2.
  assert (D3 : cder (fun s => K_ 0 0 (on_line V e s)) 0 (RtoC (- INR 1 * vdot V e * / vnorm V ^ (1 + 2)))).
  { eapply cder_ext; [|exact D2]. intros u. cbv beta. now rewrite K_00, pow_1. }
  assert (U := cder_unique _ _ _ _ D1 D3). change (0 + 1)%Z with 1%Z in U. change (0 - 1)%Z with (-1)%Z in U.
  apply (f_equal Copp) in U. match type of U with - - ?z = _ => replace (- - z) with z in U by ring end. rewrite U, <- RtoC_opp. f_equal. rewrite vdot_comm. simpl INR. change (1 + 2)%nat with 3%nat. unfold Rdiv. ring.
Qed.
(* the derivative of S_l^m along a moving point *)
Definition goes (g : R -> vec) (x : R) (e : vec) : Prop := cder (fun u => Av (g u)) x (Av e) /\ cder (fun u => zv (g u)) x (zv e) /\ cder (fun u => Bv (g u)) x (Bv e).
Lemma cder_S l m g x e : goes g x e -> cder (fun u => S_ l m (g u)) x (Av e * S_ (l - 1) (m - 1) (g x) + zv e * S_ (l - 1) m (g x) + Bv e * S_ (l - 1) (m + 1) (g x)).
Proof.
  intros (H1 & H2 & H3). eapply cder_ext; [intros u; symmetry; apply S_tri|]. rewrite !S_tri. now apply (cder_tri l m (fun u => Av (g u)) (fun u => zv (g u)) (fun u => Bv (g u))).
Qed.
Lemma shift_Hs (d : Z) N p s t : (1 <= N)%Z -> (-1 <= d <= 1)%Z ->
  zsum 0 (N + 1) (fun l => zsum (- l) (l + 1) (fun m => S_ (l - 1) (m - d) p * Hs N l m s t)) = Sq 1 d (N - 1) N (vopp p) s t.
Proof.
  intros HN Hd. rewrite <- Sq_Hs. rewrite zsum_first by lia.
  rewrite (zsum_0 (- 0)) by (intros k Hk; rewrite S_neg by lia; ring). rewrite Cplus_0_l.
  rewrite (zsum_shift (-1) (0 + 1)). replace (0 + 1 + -1)%Z with 0%Z by ring. replace (N + 1 + -1)%Z with (N - 1 + 1)%Z by ring.
  apply zsum_ext. intros l Hl. replace (l - -1 - 1)%Z with l by ring. replace (l - -1)%Z with (1 + l)%Z by ring.
  rewrite (zsum_sub (- (1 + l)) (1 + l + 1) (- l + d) (l + 1 + d)); try lia.
  - rewrite (zsum_shift (- d) (- l + d)). replace (- l + d + - d)%Z with (- l)%Z by ring. replace (l + 1 + d + - d)%Z with (l + 1)%Z by ring.
    apply zsum_ext. intros m Hm. replace (m - - d - d)%Z with m by ring. now replace (m - - d)%Z with (d + m)%Z by ring.
  - intros k Hk Hn. rewrite S_zero by lia. ring.
Qed.
(* energy and its rate of change for one pair of points *)
Definition en (N : Z) (p s t : vec) : C := zsum 0 (N + 1) (fun l => zsum (- l) (l + 1) (fun m => S_ l m p * Hs N l m s t)).
Definition den (N : Z) (e p s t : vec) : C := Av e * Sq 1 1 (N - 1) N (vopp p) s t + zv e * Sq 1 0 (N - 1) N (vopp p) s t + Bv e * Sq 1 (-1) (N - 1) N (vopp p) s t.
Lemma cder_en N g x e s t : (1 <= N)%Z -> goes g x e -> cder (fun u => en N (g u) s t) x (den N e (g x) s t).
Proof.
  intros HN Hg. unfold en. eapply cder_val; [|apply cder_zsum; intros l Hl; apply cder_zsum; intros m Hm; apply cder_scal_r, cder_S, Hg]. cbv beta.
  unfold den. rewrite <- !shift_Hs by lia. rewrite <- !zsum_scal_l, <- !zsum_plus. apply zsum_ext. intros l Hl. rewrite <- !zsum_scal_l, <- !zsum_plus. apply zsum_ext. intros m Hm.
  rewrite Z.sub_0_r. replace (m - -1)%Z with (m + 1)%Z by ring. ring.
Qed.
(* ---- arrays ---- *)
Lemma q2Q_entry qs S t l m Q : (0 <= deg qs)%Z -> vnorm t <> 0%R -> holds qs (inner_moment S) -> (Z.abs m <= l <= deg qs)%Z -> translate_q2Q qs t = Ok Q ->
  mom Q l m = RtoC (outer_norm l m) * lsum (fun s => RtoC (pm s) * Hs (deg qs) l m (pp s) t) S.
Proof. intros. now apply q2Q_of_points. Qed.
Lemma work_en c qs P S t Q : (0 <= deg qs)%Z -> vnorm t <> 0%R -> holds qs (inner_moment S) -> translate_q2Q qs t = Ok Q ->
  work c (deg qs) (inner_moment P) (mom Q) = lsum (fun p => lsum (fun s => RtoC (c * pm p * pm s) * en (deg qs) (pp p) (pp s) t) S) P.
Proof.
  intros HL Ht Hq E. unfold work, pairing.
  rewrite (zsum_ext 0 _ _ (fun l => lsum (fun p => lsum (fun s => RtoC (/ (4 * PI)) * RtoC (pm p) * RtoC (pm s) * zsum (- l) (l + 1) (fun m => S_ l m (pp p) * Hs (deg qs) l m (pp s) t)) S) P)).
  - rewrite zsum_lsum. rewrite <- lsum_scal. apply lsum_ext. intros p _. rewrite zsum_lsum. rewrite <- lsum_scal. apply lsum_ext. intros s _. rewrite zsum_scal_l. unfold en.
    set (z := zsum _ _ _). rewrite !RtoC_mult. assert (Hp : RtoC PI <> 0) by (apply RtoC_neq0, PI_neq0). rewrite RtoC_inv by (assert (A := PI_RGT_0); lra). rewrite RtoC_mult. field. exact Hp.
  - intros l Hl. rewrite (zsum_ext (- l) _ _ (fun m => lsum (fun p => lsum (fun s => RtoC (/ (4 * PI)) * RtoC (pm p) * RtoC (pm s) * (S_ l m (pp p) * Hs (deg qs) l m (pp s) t)) S) P)).
    + rewrite zsum_lsum. apply lsum_ext. intros p _. rewrite zsum_lsum. apply lsum_ext. intros s _. now rewrite zsum_scal_l.
    + intros m Hm. rewrite (q2Q_entry qs S t l m Q) by (assumption || lia). unfold inner_moment.
      transitivity (RtoC (outer_norm l m / (2 * IZR l + 1)) * (lsum (fun p => RtoC (pm p) * rsolid l m (pp p)) P * lsum (fun s => RtoC (pm s) * Hs (deg qs) l m (pp s) t) S)).
      { rewrite RtoC_div by (apply odd_neq0; lia). field. apply RtoC_neq0, odd_neq0; lia. }
      rewrite <- lsum_scal_r, <- lsum_scal. apply lsum_ext. intros p _. rewrite <- !lsum_scal. apply lsum_ext. intros s _. rewrite rsolid_S.
      replace (RtoC (/ (4 * PI))) with (RtoC (outer_norm l m / (2 * IZR l + 1)) * RtoC (nrm l m)). { ring. }
      rewrite <- RtoC_mult. f_equal. unfold outer_norm. assert (A := PI_RGT_0). field. repeat split; first [apply (odd_neq0 l); lia|apply nrm_neq0; lia|lra].
Qed.
(* ---- limits of the pairs ---- *)
Lemma vsub_as s t p : vadd t (vadd (vopp p) s) = vsub (vadd s t) p.
Proof. destruct s as [[? ?] ?], t as [[? ?] ?], p as [[? ?] ?]. unfold vadd, vopp, vsub. apply v3; ring. Qed.
Definition pair_err (L : Z) (p s t : vec) (N : nat) : R :=
  (sq_err L ((vnorm p + vnorm s) / vnorm t) (vnorm t) N + err_bound L (vnorm (vadd (vopp p) s)) (vnorm t) N)%R.
Lemma pair_err_lim L p s t : (0 <= L)%Z -> (vnorm p + vnorm s < vnorm t)%R -> is_lim_seq (pair_err L p s t) 0%R.
Proof.
  intros HL H. assert (Hp := vnorm_ge0 p). assert (Hs := vnorm_ge0 s). assert (T := vnorm_triangle (vopp p) s). rewrite vnorm_opp in T. replace 0%R with (0 + 0)%R by ring. apply (is_lim_seq_plus' (sq_err L _ _)).
  - apply sq_err_lim; [exact HL| |lra]. split; [apply Rdiv_le_0_compat; lra|]. apply (Rmult_lt_reg_r (vnorm t)); [lra|]. replace ((vnorm p + vnorm s) / vnorm t * vnorm t)%R with (vnorm p + vnorm s)%R by (field; lra). lra.
  - apply err_bound_lim; [exact HL|]. split; [apply vnorm_ge0|lra].
Qed.
Lemma en_err (N : nat) p s t : (vnorm p + vnorm s < vnorm t)%R ->
  (Cmod (en (Z.of_nat N) p s t - RtoC (/ vnorm (vsub (vadd s t) p)))%C <= pair_err 0 p s t N)%R.
Proof.
  intros H. unfold en. rewrite <- K_00, <- vsub_as.
  rewrite (zsum_ext 0 _ _ (fun l => zsum (- l) (l + 1) (fun m => S_ l m p * Hs (Z.of_nat N) (0 + l) (0 + m) s t))) by (intros l Hl; apply zsum_ext; intros m Hm; now rewrite !Z.add_0_l).
  rewrite Sq_Hs. unfold pair_err. rewrite <- (vnorm_opp p). apply double_K; [lia|rewrite vnorm_opp; exact H|lia|lia].
Qed.
Lemma far_pos p s t : (vnorm p + vnorm s < vnorm t)%R -> (0 < vnorm (vsub (vadd s t) p))%R.
Proof.
  intros H. assert (T := vnorm_triangle (vopp p) s). rewrite vnorm_opp in T. rewrite <- vsub_as, <- on_line_1. eapply Rlt_le_trans; [|apply dist_line; [lra|]]; lra.
Qed.
Lemma den_err (N : nat) e p s t : (vnorm p + vnorm s < vnorm t)%R ->
  (Cmod (den (Z.of_nat (S N)) e p s t - RtoC (vdot e (vsub (vadd s t) p) / vnorm (vsub (vadd s t) p) ^ 3))%C <= (Cmod (Av e) + Cmod (zv e) + Cmod (Bv e)) * pair_err 1 p s t N)%R.
Proof.
  intros H. assert (Hf := far_pos p s t H). rewrite <- K_1 by exact Hf. unfold den. rewrite <- vsub_as.
  assert (D : forall d, (Z.abs d <= 1)%Z -> (Cmod (Sq 1 d (Z.of_nat (S N) - 1) (Z.of_nat (S N)) (vopp p) s t - K_ 1 d (vadd t (vadd (vopp p) s)))%C <= pair_err 1 p s t N)%R).
  { intros d Hd. unfold pair_err. rewrite <- (vnorm_opp p). apply double_K; [exact Hd|rewrite vnorm_opp; exact H|lia|lia]. }
  assert (D1 := D 1%Z ltac:(lia)). assert (D0 := D 0%Z ltac:(lia)). assert (Dm := D (-1)%Z ltac:(lia)). clear D.
  set (V := vadd t (vadd (vopp p) s)) in *. set (q1 := Sq 1 1 _ _ _ _ _) in *. set (q0 := Sq 1 0 _ _ _ _ _) in *. set (qm := Sq 1 (-1) _ _ _ _ _) in *.
  replace (Av e * q1 + zv e * q0 + Bv e * qm - (Av e * K_ 1 1 V + zv e * K_ 1 0 V + Bv e * K_ 1 (-1) V)) with (Av e * (q1 - K_ 1 1 V) + zv e * (q0 - K_ 1 0 V) + Bv e * (qm - K_ 1 (-1) V)) by ring.
  eapply Rle_trans; [apply Cmod_triangle|]. eapply Rle_trans; [apply Rplus_le_compat_r, Cmod_triangle|]. rewrite !Cmod_mult, !Rmult_plus_distr_r.
  apply Rplus_le_compat; [apply Rplus_le_compat|]; apply Rmult_le_compat_l; (apply Cmod_ge_0 || assumption).
Qed.
(* ---- sums over pairs ---- *)
Lemma pairs_lim (P S : list pt) (k : pt -> pt -> R) (u : pt -> pt -> nat -> R) : (forall p s, In p P -> In s S -> is_lim_seq (u p s) 0%R) ->
  is_lim_seq (fun N => lsr (fun p => lsr (fun s => k p s * u p s N)%R S) P) 0%R.
Proof.
  intros H. replace (Finite 0%R) with (Finite (lsr (fun p => lsr (fun s => 0%R) S) P)).
  - apply (lim_lsr (fun p N => lsr (fun s => k p s * u p s N)%R S)). intros p Hp. apply (lim_lsr (fun s N => k p s * u p s N)%R). intros s Hs.
    replace (Finite 0%R) with (Finite (k p s * 0)%R) by (f_equal; ring). apply (is_lim_seq_scal_l (u p s) (k p s) 0%R). now apply H.
  - f_equal. rewrite lsr_0. apply lsr_0.
Qed.
Lemma pairs_err (P S : list pt) (k : pt -> pt -> R) (f : pt -> pt -> C) (g b : pt -> pt -> R) : (forall p s, In p P -> In s S -> (Cmod (f p s - RtoC (g p s))%C <= b p s)%R) ->
  (Cmod (lsum (fun p => lsum (fun s => RtoC (k p s) * f p s) S) P - RtoC (lsr (fun p => lsr (fun s => (k p s * g p s)%R) S) P))%C <= lsr (fun p => lsr (fun s => Rabs (k p s) * b p s)%R S) P)%R.
Proof.
  intros H. rewrite <- lsum_RtoC, lsum_minus. apply Cmod_lsum. intros p Hp. rewrite <- lsum_RtoC, lsum_minus. apply Cmod_lsum. intros s Hs.
  rewrite RtoC_mult. match goal with |- (Cmod (?c * ?x - ?c * ?y)%C <= _)%R => replace (c * x - c * y) with (c * (x - y)) by ring end. apply Cmod_mass. now apply H.
Qed.
Theorem C60_energy : forall P S t c eps, separate P S t -> (0 < eps)%R ->
  exists D, forall q qs, (D <= deg q)%Z -> deg qs = deg q -> holds q (inner_moment P) -> holds qs (inner_moment S) ->
  exists Q, translate_q2Q qs t = Ok Q /\ deg Q = deg q /\ (Cmod (work c (deg q) (mom q) (mom Q) - RtoC (newton_work c P (map (moved t) S)))%C < eps)%R.
Proof.
  intros P S t c eps [Ht H] He.
  destruct (lim_eps 1 (fun N => lsr (fun p => lsr (fun s => Rabs (c * pm p * pm s) * pair_err 0 (pp p) (pp s) t N)%R S) P) eps) as [N0 HN].
  { apply (pairs_lim P S (fun p s => Rabs (c * pm p * pm s)) (fun p s => pair_err 0 (pp p) (pp s) t)). intros p s Hp Hs. apply pair_err_lim; [lia|now apply H]. }
  { exact He. }
  exists (Z.of_nat N0). intros q qs Hd Dq Hq Hqs. destruct (translate_q2Q_holds qs t ltac:(lia) ltac:(lra)) as (Q & E & DQ & _). exists Q. split; [exact E|]. split; [congruence|].
  replace (work c (deg q) (mom q) (mom Q)) with (work c (deg qs) (inner_moment P) (mom Q)).
  2:{ rewrite Dq. unfold work. f_equal. apply pairing_ext; [|reflexivity]. intros l m Hl Hm. symmetry. apply Hq; lia. }
  rewrite (work_en c qs P S t Q) by (assumption || lia || lra). unfold newton_work.
  rewrite (lsr_ext _ (fun p => lsr (fun s => (c * pm p * pm s) * / vnorm (vsub (vadd (pp s) t) (pp p)))%R S)) by (intros p _; rewrite lsr_map; reflexivity).
  eapply Rle_lt_trans; [apply (pairs_err P S (fun p s => c * pm p * pm s)%R (fun p s => en (deg qs) (pp p) (pp s) t) (fun p s => / vnorm (vsub (vadd (pp s) t) (pp p)))%R (fun p s => pair_err 0 (pp p) (pp s) t (Z.to_nat (deg qs))))|].
  - intros p s Hp Hs. assert (B := en_err (Z.to_nat (deg qs)) (pp p) (pp s) t (H p s Hp Hs)). rewrite Z2Nat.id in B by lia. exact B.
  - assert (B := HN (Z.to_nat (deg qs)) ltac:(lia)). rewrite Rmult_1_l in B. exact B.
Qed.
Lemma rate_of c qs P S t Q g x w d : (1 <= deg qs)%Z -> vnorm t <> 0%R -> holds qs (inner_moment S) -> translate_q2Q qs t = Ok Q ->
  (forall p, In p P -> goes (fun u => g u (pp p)) x (w (pp p))) ->
  cder (fun u => work c (deg qs) (inner_moment (carried (g u) P)) (mom Q)) x d ->
  d = lsum (fun p => lsum (fun s => RtoC (c * pm p * pm s) * den (deg qs) (w (pp p)) (g x (pp p)) (pp s) t) S) P.
Proof.
  intros HL Ht Hq E Hg D. eapply cder_unique; [exact D|].
  apply (cder_ext (fun u => lsum (fun p => lsum (fun s => RtoC (c * pm p * pm s) * en (deg qs) (g u (pp p)) (pp s) t) S) P)).
  { intros u. rewrite (work_en c qs (carried (g u) P) S t Q) by (assumption || lia). unfold carried. now rewrite lsum_map. }
  apply cder_lsum. intros p Hp. apply cder_lsum. intros s Hs. apply cder_scal. now apply (cder_en (deg qs) (fun u => g u (pp p))), Hg.
Qed.
Lemma rate_lim c P S t (g w : vec -> vec) eps : (0 < eps)%R -> (forall p s, In p P -> In s S -> (vnorm (g (pp p)) + vnorm (pp s) < vnorm t)%R) ->
  exists D, (1 <= D)%Z /\ forall N, (D <= N)%Z ->
  (Cmod (lsum (fun p => lsum (fun s => RtoC (c * pm p * pm s) * den N (w (pp p)) (g (pp p)) (pp s) t) S) P
         - RtoC (lsr (fun p => lsr (fun s => (c * pm p * pm s * (vdot (w (pp p)) (vsub (vadd (pp s) t) (g (pp p))) / vnorm (vsub (vadd (pp s) t) (g (pp p))) ^ 3))%R) S) P))%C < eps)%R.
Proof.
  intros He H.
  destruct (lim_eps 1 (fun N => lsr (fun p => lsr (fun s => Rabs (c * pm p * pm s) * ((Cmod (Av (w (pp p))) + Cmod (zv (w (pp p))) + Cmod (Bv (w (pp p)))) * pair_err 1 (g (pp p)) (pp s) t N))%R S) P) eps) as [N0 HN].
  { apply (pairs_lim P S (fun p s => Rabs (c * pm p * pm s)) (fun p s N => (Cmod (Av (w (pp p))) + Cmod (zv (w (pp p))) + Cmod (Bv (w (pp p)))) * pair_err 1 (g (pp p)) (pp s) t N)%R). intros p s Hp Hs.
    set (k := (Cmod _ + Cmod _ + Cmod _)%R). replace (Finite 0%R) with (Finite (k * 0)%R) by (f_equal; ring). apply (is_lim_seq_scal_l (pair_err 1 (g (pp p)) (pp s) t) k 0%R), pair_err_lim; [lia|now apply H]. }
  { exact He. }
  exists (Z.of_nat (Datatypes.S N0)). split; [lia|]. intros N HN'. assert (B := HN (Z.to_nat (N - 1)) ltac:(lia)). rewrite Rmult_1_l in B. eapply Rle_lt_trans; [|exact B].
  apply (pairs_err P S (fun p s => c * pm p * pm s)%R (fun p s => den N (w (pp p)) (g (pp p)) (pp s) t)). intros p s Hp Hs.
  replace N with (Z.of_nat (Datatypes.S (Z.to_nat (N - 1)))) at 1 by lia. apply den_err. now apply H.
Qed.
Lemma power_moved w g P S t :
  lsr (fun p => lsr (fun s => (BIG_G * pm p * pm s * (vdot (w (pp p)) (vsub (vadd (pp s) t) (g (pp p))) / vnorm (vsub (vadd (pp s) t) (g (pp p))) ^ 3))%R) S) P
  = lsr (fun p => vdot (w (pp p)) (vS (fun s => pf wG (mkpt (pm p) (g (pp p))) s) (map (moved t) S))) P.
Proof. rewrite <- power_pf. apply lsr_ext. intros p _. rewrite lsr_map. reflexivity. Qed.
Lemma separate_apart P S t : separate P S t -> coincide P (map (moved t) S) = false.
Proof.
  intros [Ht H]. apply coincide_false. intros p s Hp Hs E. apply in_map_iff in Hs. destruct Hs as (s0 & <- & Hs). assert (F := far_pos (pp p) (pp s0) t (H p s0 Hp Hs)).
  cbn [moved pp] in E. rewrite <- E in F. replace (vsub (pp p) (pp p)) with v0 in F. { rewrite vnorm_v0 in F. lra. } destruct (pp p) as [[? ?] ?]. unfold vsub, v0. apply v3; ring.
Qed.
Lemma goes_line (g : R -> vec) x a e : (forall u, g u = on_line a e u) -> goes g x e.
Proof.
  intros H. split; [|split].
  - eapply cder_ext; [|apply (cder_Av a e x)]. intros u. cbv beta. now rewrite H.
  - eapply cder_ext; [|apply (cder_zv a e x)]. intros u. cbv beta. now rewrite H.
  - eapply cder_ext; [|apply (cder_Bv a e x)]. intros u. cbv beta. now rewrite H.
Qed.
(* a computed force within eps of a vector, component by component *)
Definition near (eps : R) (f : C * C * C) (F : vec) : Prop :=
  let '(fx, fy, fz) := f in let '(x, y, z) := F in (Cmod (fx - RtoC x)%C < eps /\ Cmod (fy - RtoC y)%C < eps /\ Cmod (fz - RtoC z)%C < eps)%R.
Theorem C60_force : forall P S t x y z eps, separate (map (moved (x, y, z)%R) P) S t -> (0 < eps)%R ->
  exists F T, point_matrix_gravity (translate_point_array (Rows P) (x, y, z)%R) (translate_point_array (Rows S) t) = Ok (F, T) /\
  exists D, forall q qs, (D <= deg q)%Z -> deg qs = deg q -> holds q (inner_moment P) -> holds qs (inner_moment S) ->
  exists Q f, translate_q2Q qs t = Ok Q /\ multipole_force (deg q) q Q x y z BIG_G = Ok f /\ near eps f F.
Proof.
  intros P S t x y z eps Hsep He. set (v := (x, y, z)%R : vec). set (g := fun u : vec => vadd u v).
  exists (totF wG (carried g P) (map (moved t) S)), (totT wG (carried g P) (map (moved t) S)). split.
  { assert (Ap := separate_apart _ S t Hsep). rewrite !translate_moved, gravity_spec. cbn [rows]. change (carried g P) with (map (moved v) P). unfold v. now rewrite Ap. }
  destruct Hsep as [Ht H].
  assert (H' : forall p s, In p P -> In s S -> (vnorm (g (pp p)) + vnorm (pp s) < vnorm t)%R). { intros p s Hp Hs. apply (H (moved v p) s); [now apply in_map|exact Hs]. }
  assert (L : forall e, exists D, (1 <= D)%Z /\ forall N, (D <= N)%Z -> (Cmod (lsum (fun p => lsum (fun s => RtoC (BIG_G * pm p * pm s) * den N e (g (pp p)) (pp s) t) S) P - RtoC (vdot e (totF wG (carried g P) (map (moved t) S))))%C < eps)%R).
  { intros e. destruct (rate_lim BIG_G P S t g (fun _ => e) eps He H') as (D & HD & B). exists D. split; [exact HD|]. intros N HN. specialize (B N HN). rewrite (power_moved (fun _ => e)) in B. rewrite totF_at, vdot_vS. exact B. }
  destruct (L (1, 0, 0)%R) as (D1 & HD1 & B1). destruct (L (0, 1, 0)%R) as (D2 & HD2 & B2). destruct (L (0, 0, 1)%R) as (D3 & HD3 & B3).
  exists (Z.max D1 (Z.max D2 D3)). intros q qs Hd Dq Hq Hqs. destruct (translate_q2Q_holds qs t ltac:(lia) ltac:(lra)) as (Q & E & DQ & _).
  destruct (C30_force_on_a_body q Q P x y z BIG_G ltac:(lia) ltac:(congruence) Hq ltac:(lia)) as (fx & fy & fz & Ef & G1 & G2 & G3).
  exists Q, (fx, fy, fz). split; [exact E|]. split; [exact Ef|].
  assert (K : forall (gt : R -> vec -> vec) (x0 : R) e d, (forall u, gt x0 u = g u) -> (forall t u, gt t u = on_line (gt 0%R u) e t) ->
    cder (fun u => work BIG_G (deg q) (inner_moment (carried (gt u) P)) (mom Q)) x0 d -> d = lsum (fun p => lsum (fun s => RtoC (BIG_G * pm p * pm s) * den (deg q) e (g (pp p)) (pp s) t) S) P).
  { intros gt x0 e d Eg Hl D. rewrite <- Dq in *. rewrite (rate_of BIG_G qs P S t Q gt x0 (fun _ => e) d ltac:(lia) ltac:(lra) Hqs E); [| |exact D].
    - apply lsum_ext. intros p _. now rewrite Eg.
    - intros p _. apply (goes_line _ x0 (gt 0%R (pp p))). intros u. apply Hl. }
  apply (K (fun u w => vadd w (u, y, z)%R) x (1, 0, 0)%R fx) in G1; [|reflexivity|intros u [[a b] c]; unfold vadd, on_line; apply v3; ring].
  apply (K (fun u w => vadd w (x, u, z)%R) y (0, 1, 0)%R fy) in G2; [|reflexivity|intros u [[a b] c]; unfold vadd, on_line; apply v3; ring].
  apply (K (fun u w => vadd w (x, y, u)%R) z (0, 0, 1)%R fz) in G3; [|reflexivity|intros u [[a b] c]; unfold vadd, on_line; apply v3; ring].
  specialize (B1 (deg q) ltac:(lia)). specialize (B2 (deg q) ltac:(lia)). specialize (B3 (deg q) ltac:(lia)). rewrite <- G1 in B1. rewrite <- G2 in B2. rewrite <- G3 in B3.
  destruct (totF wG (carried g P) (map (moved t) S)) as [[f1 f2] f3]. unfold near.
  replace (vdot (1, 0, 0)%R (f1, f2, f3)) with f1 in B1 by (unfold vdot; ring). replace (vdot (0, 1, 0)%R (f1, f2, f3)) with f2 in B2 by (unfold vdot; ring). replace (vdot (0, 0, 1)%R (f1, f2, f3)) with f3 in B3 by (unfold vdot; ring).
  now split; [|split].
Qed.
(* ---- torque ---- *)
Lemma goes_turn x v : goes (fun u => zrot u v) x (let '(a, b, _) := v in (- sin x * a - cos x * b, cos x * a - sin x * b, 0)%R).
Proof.
  destruct v as [[a b] c]. unfold goes, zrot, Av, Bv, zv. split; [|split]; split; cbn [Re Im fst snd Copp Cmult Cplus Cminus Cdiv Cinv RtoC Ci]; auto_derive; trivial; cbn; field.
Qed.
Lemma torque_turning q Q P c nlm nc ns phi : (0 <= deg q)%Z -> deg Q = deg q -> holds q (inner_moment P) -> reality Q -> torque_lm q Q c = Ok (nlm, nc, ns) ->
  exists t, torques_at_angle nc ns phi false = Ok t /\ cder (fun psi => work c (deg q) (inner_moment (turned psi P)) (mom Q)) phi (RtoC t).
Proof.
  intros HL DQ Hq RQ E. assert (Rq := reality_inner q P Hq). assert (Cq := proj2 Hq).
  assert (G : cder (fun psi => work c (deg q) (inner_moment (turned psi P)) (mom Q)) phi (KG c * dot (deg q) (wt (ez phi) q) (Qw Q))).
  { eapply cder_ext; [|apply work_der; assumption]. intros t. cbv beta. unfold work. f_equal. apply pairing_ext; [|reflexivity].
    intros l m Hl Hm. rewrite wt_mom, inner_turned by lia. f_equal. apply Hq; lia. }
  destruct (C31_torques_at_angle q Q c phi false nlm nc ns HL DQ Rq Cq RQ E) as (q' & n' & c' & s' & t & E1 & E2 & E3 & E4).
  exists t. split; [exact E3|]. eapply cder_val; [|exact G]. assert (Sm := rot_wt _ _ _ HL Cq E1). assert (Dq : deg q' = deg q) by (apply Sm).
  destruct (torque_lm_ok q' Q c ltac:(lia) ltac:(lia)) as (a1 & a2 & a3 & E' & Ht'). rewrite E2 in E'. injection E' as <- <- <-.
  assert (C' : corners0 q') by (intros l m Hl Hm; rewrite Dq in *; rewrite (proj2 Sm) by (rewrite ?Dq; lia); apply wt_corners; [exact Cq|cbn; lia|cbn; lia]).
  rewrite <- E4, (total_dot (deg q') (KG c) q' (Qw Q) _ _ _ ltac:(lia) eq_refl Ht' C'), Dq. f_equal. apply dot_ext; [|reflexivity]. intros l m Hl Hm. symmetry. apply Sm; lia.
Qed.
Lemma separate_turned phi P S t : separate P S t -> separate (turned phi P) S t.
Proof.
  intros [Ht H]. split; [exact Ht|]. intros p s Hp Hs. unfold turned in Hp. apply in_map_iff in Hp. destruct Hp as (p0 & <- & Hp). cbn [pp]. rewrite vnorm_zrot. now apply H.
Qed.
Theorem C60_torque : forall P S t phi eps, separate P S t -> (0 < eps)%R ->
  exists P' F T, rotate_point_array (Rows P) phi (0, 0, 1)%R = Ok P' /\ point_matrix_gravity P' (translate_point_array (Rows S) t) = Ok (F, T) /\
  exists D, forall q qs, (D <= deg q)%Z -> deg qs = deg q -> holds q (inner_moment P) -> holds qs (inner_moment S) ->
  exists Q nlm nc ns n, translate_q2Q qs t = Ok Q /\ torque_lm q Q BIG_G = Ok (nlm, nc, ns) /\ torques_at_angle nc ns phi false = Ok n /\ (Rabs (n - zcomp T) < eps)%R.
Proof.
  intros P S t phi eps Hsep He. assert (Hs' := separate_turned phi P S t Hsep).
  exists (Rows (turned phi P)), (totF wG (turned phi P) (map (moved t) S)), (totT wG (turned phi P) (map (moved t) S)). split; [apply rotate_turned|]. split.
  { assert (Ap := separate_apart _ S t Hs'). rewrite translate_moved, gravity_spec. cbn [rows]. now rewrite Ap. }
  destruct Hsep as [Ht H]. set (w := fun v : vec => let '(a, b, _) := v in (- sin phi * a - cos phi * b, cos phi * a - sin phi * b, 0)%R : vec).
  destruct (rate_lim BIG_G P S t (zrot phi) w eps He) as (D & HD & B). { intros p s Hp Hs. rewrite vnorm_zrot. now apply H. }
  exists D. intros q qs Hd Dq Hq Hqs. destruct (translate_q2Q_holds qs t ltac:(lia) ltac:(lra)) as (Q & E & DQ & _).
  destruct (torque_lm_ok q Q BIG_G ltac:(lia) ltac:(lia)) as (nlm & nc & ns & En & _).
  assert (RQ : reality Q) by (eapply q2Q_symm; [|eapply reality_inner; exact Hqs|exact E]; lia).
  destruct (torque_turning q Q P BIG_G nlm nc ns phi ltac:(lia) ltac:(lia) Hq RQ En) as (n & Et & G).
  exists Q, nlm, nc, ns, n. split; [exact E|]. split; [exact En|]. split; [exact Et|].
  rewrite <- Dq in G. apply (rate_of BIG_G qs P S t Q zrot phi w (RtoC n) ltac:(lia) ltac:(lra) Hqs E) in G; [|intros p _; apply goes_turn].
  specialize (B (deg qs) ltac:(lia)). rewrite <- G, (power_moved w) in B. unfold w in B. rewrite turn_power, <- RtoC_minus, Cmod_R in B. exact B.
Qed.
(* the example scripts: rotate_qlm of a rotor by x, force on the mirror's field *)
Lemma moved_0 P : map (moved (0, 0, 0)%R) P = P.
Proof. rewrite <- (map_id P) at 2. apply map_ext. intros [m [[a b] c]]. unfold moved, vadd. cbn [pm pp]. f_equal. apply v3; ring. Qed.
Theorem C60_script : forall P S t x eps, separate P S t -> (0 < eps)%R ->
  exists P' F T, rotate_point_array (Rows P) x (0, 0, 1)%R = Ok P' /\ point_matrix_gravity P' (translate_point_array (Rows S) t) = Ok (F, T) /\
  exists D, forall q qs, (D <= deg q)%Z -> deg qs = deg q -> holds q (inner_moment P) -> holds qs (inner_moment S) ->
  exists Q f, translate_q2Q qs t = Ok Q /\ script_force (deg q) q Q x BIG_G = Ok f /\ near eps f F.
Proof.
  intros P S t x eps Hsep He. assert (Hs' := separate_turned x P S t Hsep). assert (Hs0 := Hs'). rewrite <- (moved_0 (turned x P)) in Hs0.
  destruct (C60_force (turned x P) S t 0 0 0 eps Hs0 He) as (F & T & EG & D & B). exists (Rows (turned x P)), F, T. split; [apply rotate_turned|].
  rewrite (translate_moved (turned x P)), moved_0 in EG. split; [exact EG|]. exists (Z.max 0 D). intros q qs Hd Dq Hq Hqs.
  destruct (C23_rotated_moments q P x 0 0 ltac:(lia) Hq) as (q' & Eq & Dq' & Hq'). change (holds q' (inner_moment (map (fun p => mkpt (pm p) (euler x 0 0 (pp p))) P))) in Hq'. rewrite turned_euler in Hq'.
  destruct (B q' qs ltac:(lia) ltac:(lia) Hq' Hqs) as (Q & f & E1 & E2 & E3). exists Q, f. split; [exact E1|]. split; [|exact E3].
  unfold script_force. rewrite Eq. cbn [bind]. rewrite <- Dq'. exact E2.
Qed.
(* the hypotheses are met: two dumb-bells five units apart, at every degree *)
Example C60_case : let P := [mkpt 1 (1, 0, 0)%R; mkpt 2 (-1, 0, 0)%R] in let S := [mkpt 3 (0, 1, 0)%R; mkpt 3 (0, -1, 0)%R] in
  separate P S (5, 0, 0)%R /\ (separate (map (moved (1, 1, 0)%R) P) S (5, 0, 0)%R) /\
  forall L, (0 <= L)%Z -> exists q qs, deg q = L /\ deg qs = deg q /\ holds q (inner_moment P) /\ holds qs (inner_moment S).
Proof.
  intros P S.
  assert (B : forall x y z r, (0 <= r)%R -> (x ^ 2 + y ^ 2 + z ^ 2 <= r ^ 2)%R -> (vnorm (x, y, z)%R <= r)%R).
  { intros x y z r Hr Hx. rewrite vnorm_xyz. rewrite <- (sqrt_pow2 r Hr). now apply sqrt_le_1_alt. }
  assert (T : vnorm (5, 0, 0)%R = 5%R). { rewrite vnorm_xyz. replace (5 ^ 2 + 0 ^ 2 + 0 ^ 2)%R with (5 ^ 2)%R by ring. apply sqrt_pow2. lra. }
  split; [|split].
  - split; [lra|]. intros p s Hp Hs.
    assert ((vnorm (pp p) <= 1)%R) by (destruct Hp as [<-|[<-|[]]]; apply B; lra). assert ((vnorm (pp s) <= 1)%R) by (destruct Hs as [<-|[<-|[]]]; apply B; lra). lra.
  - split; [lra|]. intros p s Hp Hs.
    assert ((vnorm (pp p) <= 3)%R) by (destruct Hp as [<-|[<-|[]]]; apply B; lra). assert ((vnorm (pp s) <= 1)%R) by (destruct Hs as [<-|[<-|[]]]; apply B; lra). lra.
  - intros L HL.
    assert (O : forall T : list pt, (forall p, In p T -> pp p <> v0) -> ~ origin_before_other T).
    { intros T' Hn (l1 & p & l2 & r & l3 & E & Hp & Hr). apply (Hn p); [|exact Hp]. rewrite E. apply in_or_app. right. now left. }
    destruct (C08_qmoments L P HL) as (q & _ & Dq & Hq). { apply O. intros p [<-|[<-|[]]] Ev; injection Ev; lra. }
    destruct (C08_qmoments L S HL) as (qs & _ & Dqs & Hqs). { apply O. intros p [<-|[<-|[]]] Ev; injection Ev; lra. }
    exists q, qs. split; [exact Dq|]. split; [congruence|]. split; assumption.
Qed.
Print Assumptions C60_energy.
Print Assumptions C60_force.
Print Assumptions C60_torque.
Print Assumptions C60_script.
