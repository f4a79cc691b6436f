(* Proofs about Pg2Multi.v *)
From Verif Require Export Pg2Multi GlibProofs.
From Coq Require Import Psatz Permutation.
Open Scope C_scope.

(* ---- point values ------------------------------------------------------ *)
Lemma sph_harm_symm m l phi theta : sph_harm (- m) l phi theta = sgnC m * Cconj (sph_harm m l phi theta).
Proof.
  destruct (Z.eq_dec m 0) as [->|Hm].
  - change (- 0)%Z with 0%Z. rewrite sgnC_0, Cmult_1_l. unfold sph_harm. cbn [Z.ltb Z.compare Z.abs].
    rewrite Rmult_0_l, cexpi_0, Cconj_mult, !Cconj_RtoC. reflexivity.
  - unfold sph_harm. rewrite Z.abs_opp. destruct (Z.ltb_spec (- m) 0), (Z.ltb_spec m 0); try lia.
    + now rewrite sgnC_abs.
    + rewrite (Cconj_mult (sgnC _)), Cconj_conj, sgnC_conj, sgnC_abs, Cmult_assoc, sgnC_sq. ring.
Qed.
Lemma vnorm_xyz x y z : vnorm (x, y, z) = sqrt (x ^ 2 + y ^ 2 + z ^ 2).
Proof. reflexivity. Qed.
Definition Yp (m l : Z) (p : pt) : C := sph_harm m l (ph_of p) (th_of p).
Lemma Yp_symm m l p : Yp (- m) l p = sgnC m * Cconj (Yp m l p).
Proof. apply sph_harm_symm. Qed.
Lemma Yp_rsolid l m p : (Z.abs m <= l)%Z -> vnorm (pp p) <> 0%R ->
  RtoC (vnorm (pp p) ^ Z.to_nat l) * Cconj (Yp m l p) = rsolid l m (pp p).
Proof.
  intros Hm Hr. unfold Yp, th_of, ph_of, rsolid. destruct p as [M [[x y] z]]. cbn [pp] in *.
  rewrite vnorm_xyz in *. destruct (spherical_of_cartesian x y z Hr) as (B & Ex & Ey & Ez).
  rewrite sph_harm_solid by assumption. cbv zeta in *. f_equal. now rewrite <- Ex, <- Ey, <- Ez.
Qed.
Lemma rsolid_symm l m v : rsolid l (- m) v = sgnC m * Cconj (rsolid l m v).
Proof. destruct v as [[x y] z]. unfold rsolid. rewrite nrm_opp, solid_symm, Cconj_mult, Cconj_RtoC. ring. Qed.
Lemma isolid_symm l m v : isolid l (- m) v = sgnC m * Cconj (isolid l m v).
Proof.
  unfold isolid. rewrite rsolid_symm. rewrite Cconj_mult, sgnC_conj, Cconj_div, !Cconj_conj, Cconj_RtoC. unfold Cdiv. ring.
Qed.
Lemma inner_symm pts l m : inner_moment pts l (- m) = sgnC m * Cconj (inner_moment pts l m).
Proof.
  unfold inner_moment. rewrite lsum_conj, <- lsum_scal. apply lsum_ext. intros p _.
  rewrite rsolid_symm, Cconj_mult, Cconj_RtoC. ring.
Qed.
Lemma outer_symm pts l m : outer_moment pts l (- m) = sgnC m * Cconj (outer_moment pts l m).
Proof.
  unfold outer_moment. rewrite lsum_conj, <- lsum_scal. apply lsum_ext. intros p _.
  rewrite isolid_symm, Cconj_mult, Cconj_RtoC. ring.
Qed.
Lemma Yp_isolid l m p : (Z.abs m <= l)%Z -> vnorm (pp p) <> 0%R ->
  Yp m l p / RtoC (vnorm (pp p) ^ Z.to_nat (l + 1)) = isolid l m (pp p).
Proof.
  intros Hm Hr. unfold isolid. rewrite <- Yp_rsolid by assumption.
  rewrite Cconj_mult, Cconj_RtoC, Cconj_conj.
  replace (Z.to_nat (2 * l + 1)) with (Z.to_nat l + Z.to_nat (l + 1))%nat by lia. rewrite pow_add, RtoC_mult.
  field. split; apply RtoC_neq0; now apply pow_nonzero.
Qed.
Lemma rsolid_origin l m : (l <> 0)%Z -> rsolid l m v0 = 0.
Proof. intros. unfold rsolid, v0. rewrite solid_origin by assumption. ring. Qed.
Lemma nrm00 : nrm 0 0 = (/ sqrt (4 * PI))%R.
Proof.
  unfold nrm. change (0 + 0)%Z with 0%Z. change (0 - 0)%Z with 0%Z. rewrite zfact_0.
  replace ((2 * 0 + 1) * 1 * 1 / (4 * PI))%R with (/ (4 * PI))%R by (field; apply PI_neq0).
  rewrite sqrt_inv. reflexivity.
Qed.
Lemma rsolid00 v : rsolid 0 0 v = RtoC (/ sqrt (4 * PI)).
Proof. destruct v as [[x y] z]. unfold rsolid. rewrite solid_00, nrm00. ring. Qed.
Lemma inner00 pts : inner_moment pts 0 0 = RtoC (total_mass pts / sqrt (4 * PI)).
Proof.
  unfold inner_moment, total_mass. induction pts as [|p l IH]; cbn [lsum fold_right].
  - unfold Rdiv. rewrite Rmult_0_l. reflexivity.
  - rewrite IH, rsolid00. rewrite <- RtoC_mult, <- RtoC_plus. f_equal. unfold Rdiv. ring.
Qed.
Lemma q00_csum ma : csum (map (fun p => RtoC (pm p / sqrt (4 * PI))) ma) = RtoC (total_mass ma / sqrt (4 * PI)).
Proof.
  unfold csum. rewrite lsum_map. induction ma as [|p l IH]; cbn [lsum total_mass fold_right].
  - unfold Rdiv. rewrite Rmult_0_l. reflexivity.
  - rewrite IH. rewrite <- RtoC_plus. f_equal. unfold total_mass, Rdiv. ring.
Qed.

(* ---- index lists --------------------------------------------------------- *)
Definition nzp (p : pt) : bool := negb (is0 (vnorm (pp p))).
Lemma nzp_true p : nzp p = true <-> vnorm (pp p) <> 0%R.
Proof. unfold nzp. rewrite negb_true_iff. apply is0_false. Qed.
Lemma nzp_false p : nzp p = false <-> pp p = v0.
Proof.
  unfold nzp. rewrite negb_false_iff, is0_true. destruct (Req_EM_T (vnorm (pp p)) 0) as [E|E].
  - split; auto. intros _. destruct (pp p) as [[x y] z]. unfold vnorm in E. apply sqrt3_0 in E.
    destruct E as (-> & -> & ->). reflexivity.
  - split; [intros; contradiction|]. intros H. exfalso. apply vnorm_pos_iff in E. contradiction.
Qed.
Lemma vnorm_v0 : vnorm v0 = 0%R.
Proof. unfold vnorm, v0. replace (0 ^ 2 + 0 ^ 2 + 0 ^ 2)%R with 0%R by ring. apply sqrt_0. Qed.
Lemma nth_rlist ma i : nth i (rlist ma) 0%R = vnorm (pp (nth i ma dummy)).
Proof. unfold rlist. rewrite <- (map_nth (fun p => vnorm (pp p))). f_equal. symmetry. apply vnorm_v0. Qed.
Lemma rids_in ma i : In i (rids ma) <-> (i < length ma)%nat /\ nzp (nth i ma dummy) = true.
Proof.
  unfold rids. rewrite filter_In, in_seq, nth_rlist. unfold nzp. split; intros [? ?]; split; auto; lia.
Qed.
Lemma rids_nodup ma : NoDup (rids ma).
Proof. apply NoDup_filter, seq_NoDup. Qed.
Lemma take_ok {A} (a : list A) ids : (forall i, In i ids -> (i < length a)%nat) -> exists xs, take a ids = Ok xs.
Proof.
  induction ids as [|i r IH]; intros H; [eexists; reflexivity|]. cbn [take].
  destruct (nth_error a i) eqn:E.
  - destruct IH as [xs ->]; [intros; apply H; now right|]. eexists; reflexivity.
  - apply nth_error_None in E. specialize (H i (or_introl eq_refl)). lia.
Qed.
Lemma take_err {A} (a : list A) ids i : In i ids -> (length a <= i)%nat -> take a ids = Err IndexError.
Proof.
  induction ids as [|j r IH]; intros H Hi; [destruct H|]. cbn [take]. destruct H as [->|H].
  - now rewrite (proj2 (nth_error_None a i)).
  - destruct (nth_error a j); [|reflexivity]. now rewrite IH.
Qed.
Lemma take_seq {A} (f : nat -> A) k : take (map f (seq 0 k)) (seq 0 k) = Ok (map f (seq 0 k)).
Proof.
  assert (G : forall (l pre : list A), take (pre ++ l) (seq (length pre) (length l)) = Ok l).
  { induction l as [|x l IH]; intros pre; [reflexivity|]. cbn [length seq take].
    rewrite nth_error_app2, Nat.sub_diag by lia. cbn [nth_error].
    specialize (IH (pre ++ x :: nil)). rewrite <- app_assoc in IH. cbn [app] in IH.
    rewrite app_length in IH. cbn [length] in IH. rewrite Nat.add_1_r in IH. now rewrite IH. }
  specialize (G (map f (seq 0 k)) nil). cbn [app length] in G. rewrite map_length, seq_length in G. exact G.
Qed.

Lemma sorted_or_bad ma : (exists l1 l2, ma = l1 ++ l2 /\ List.Forall (fun p => nzp p = true) l1 /\ List.Forall (fun p => nzp p = false) l2)
  \/ origin_before_other ma.
Proof.
  induction ma as [|p ma IH]; [left; exists nil, nil; auto|].
  destruct IH as [(l1 & l2 & -> & H1 & H2)|(a & x & b & y & c & -> & Hx & Hy)].
  - destruct (nzp p) eqn:E.
    + left. exists (p :: l1), l2. auto.
    + destruct l1 as [|q l1].
      * left. exists nil, (p :: l2). auto.
      * right. exists nil, p, nil, q, (l1 ++ l2). inversion H1; subst. split; [reflexivity|]. split.
        -- now apply nzp_false.
        -- intros Hq. apply nzp_false in Hq. congruence.
  - right. exists (p :: a), x, b, y, c. auto.
Qed.
Lemma rids_sorted l1 l2 : List.Forall (fun p => nzp p = true) l1 -> List.Forall (fun p => nzp p = false) l2 ->
  rids (l1 ++ l2) = seq 0 (length l1).
Proof.
  intros H1 H2. unfold rids. rewrite app_length, seq_app, filter_app.
  rewrite (proj2 (filter_ext_in_iff _ (fun _ => true) (seq 0 (length l1)))).
  2:{ intros i Hi. apply in_seq in Hi. rewrite nth_rlist, app_nth1 by lia.
      rewrite Forall_forall in H1. apply H1. apply nth_In. lia. }
  rewrite (proj2 (filter_ext_in_iff _ (fun _ => false) (seq (0 + length l1) (length l2)))).
  2:{ intros i Hi. apply in_seq in Hi. rewrite nth_rlist, app_nth2 by lia.
      rewrite Forall_forall in H2. apply (H2 (nth (i - length l1) l2 dummy)). apply nth_In. lia. }
  assert (F : forall l : list nat, filter (fun _ => false) l = nil) by (induction l; auto).
  assert (T : forall l : list nat, filter (fun _ => true) l = l) by (induction l; simpl; congruence).
  rewrite F, T. apply app_nil_r.
Qed.
Lemma bad_not_ok ma : origin_before_other ma -> exists i, In i (rids ma) /\ (length (rids ma) <= i)%nat.
Proof.
  intros (l1 & p & l2 & q & l3 & E & Hp & Hq).
  destruct (existsb (fun i => Nat.leb (length (rids ma)) i) (rids ma)) eqn:Ex.
  { apply existsb_exists in Ex. destruct Ex as (i & Hi & Hle). exists i. split; auto. now apply Nat.leb_le. }
  exfalso. assert (All : forall i, In i (rids ma) -> (i < length (rids ma))%nat).
  { intros i Hi. apply Nat.nle_gt. intros Hle. apply Nat.leb_le in Hle.
    assert (existsb (fun i => Nat.leb (length (rids ma)) i) (rids ma) = true) by (apply existsb_exists; eauto). congruence. }
  assert (Inc : incl (seq 0 (length (rids ma))) (rids ma)).
  { apply NoDup_length_incl; [apply rids_nodup| |].
    - rewrite seq_length. lia.
    - intros i Hi. apply in_seq. specialize (All i Hi). lia. }
  set (ip := length l1). set (iq := (length l1 + S (length l2))%nat).
  assert (Np : nth ip ma dummy = p). { rewrite E. unfold ip. rewrite app_nth2, Nat.sub_diag by lia. reflexivity. }
  assert (Nq : nth iq ma dummy = q).
  { rewrite E. unfold iq. rewrite app_nth2 by lia. replace (length l1 + S (length l2) - length l1)%nat with (S (length l2)) by lia.
    cbn [nth]. rewrite app_nth2, Nat.sub_diag by lia. reflexivity. }
  assert (Iq : In iq (rids ma)).
  { apply rids_in. split.
    - rewrite E. rewrite app_length. cbn [length]. rewrite app_length. cbn [length]. unfold iq. lia.
    - rewrite Nq. destruct (nzp q) eqn:F; [reflexivity|]. apply nzp_false in F. contradiction. }
  assert (Ip : In ip (rids ma)). { apply Inc. apply in_seq. specialize (All iq Iq). unfold ip, iq in *. lia. }
  apply rids_in in Ip. destruct Ip as [_ Ip]. rewrite Np in Ip. apply nzp_false in Hp. congruence.
Qed.

(* ---- the loop ---------------------------------------------------------------- *)
Lemma zforR_ok {S} a b (g : Z -> S -> S) (acc : res S) :
  zfor a b (fun k acc => do q <- acc; Ok (g k q)) acc = (do q <- acc; Ok (zfor a b g q)).
Proof.
  unfold zfor. induction (Z.to_nat (b - a)) as [|n IH]; cbn [nfor].
  - destruct acc; reflexivity.
  - rewrite IH. destruct acc; reflexivity.
Qed.
Lemma mloop_ok L ma rad q0 ph th : take (phis ma) (rids ma) = Ok ph -> take (thetas ma) (rids ma) = Ok th ->
  mloop L ma rad q0 = Ok (fill 1 (L + 1) L (fun n m =>
    let v := map (fun tp => Cconj (sph_harm m n (snd tp) (fst tp))) (combine th ph) in
    let w := map (fun i => let p := nth i ma dummy in RtoC (pm p * rad n p)) (rids ma) in
    csum (map (fun vw => fst vw * snd vw) (combine v w))) q0).
Proof.
  intros H1 H2. unfold mloop, fill.
  match goal with |- ?x = Ok (zfor ?a ?b ?g q0) =>
    transitivity (zfor a b (fun k acc => do q <- acc; Ok (g k q)) (Ok q0)); [|now rewrite zforR_ok] end.
  apply zfor_ext. intros n acc Hn. rewrite <- zforR_ok.
  apply zfor_ext. intros m acc' Hm. destruct acc'; cbn [bind]; [|reflexivity].
  now rewrite H1, H2.
Qed.
Lemma zforR_keep {S} a b (g : Z -> res S -> res S) e : (forall k, g k (Err e) = Err e) -> zfor a b g (Err e) = Err e.
Proof. intros H. unfold zfor. induction (Z.to_nat (b - a)) as [|n IH]; cbn [nfor]; [reflexivity|]. now rewrite IH. Qed.
Lemma mloop_err L ma rad q0 : (1 <= L)%Z -> take (phis ma) (rids ma) = Err IndexError -> mloop L ma rad q0 = Err IndexError.
Proof.
  intros HL H. unfold mloop.
  assert (P : forall n acc, (1 <= n)%Z -> (exists q, acc = Ok q) \/ acc = Err IndexError -> 
    zfor 0 (n + 1) (fun m acc => do q <- acc; do ph <- take (phis ma) (rids ma); do th <- take (thetas ma) (rids ma);
      let v := map (fun tp => Cconj (sph_harm m n (snd tp) (fst tp))) (combine th ph) in
      let w := map (fun i => let p := nth i ma dummy in RtoC (pm p * rad n p)) (rids ma) in
      Ok (upd q n (L + m)%Z (csum (map (fun vw => fst vw * snd vw) (combine v w))))) acc = Err IndexError).
  { intros n acc Hn Ha. rewrite zfor_last by lia.
    match goal with |- bind ?x _ = _ => assert (E : (exists q, x = Ok q) \/ x = Err IndexError) end.
    { apply (zfor_ind (fun _ s => (exists q, s = Ok q) \/ s = Err IndexError)); [lia|exact Ha|].
      intros k t _ [[q ->]| ->]; right; cbn [bind]; now rewrite ?H. }
    destruct E as [[q ->]| ->]; cbn [bind]; now rewrite ?H. }
  rewrite zfor_last by lia. apply P; [lia|].
  apply (zfor_ind (fun _ s => (exists q, s = Ok q) \/ s = Err IndexError)); [lia|eauto|].
  intros k t Hk Ht. right. apply P; [lia|exact Ht].
Qed.
Lemma combine_map2 {A B D} (f : A -> B) (g : A -> D) l : combine (map f l) (map g l) = map (fun x => (f x, g x)) l.
Proof. induction l; simpl; congruence. Qed.
Lemma map_nth_seq {A} (l l' : list A) d : map (fun i => nth i (l ++ l') d) (seq 0 (length l)) = l.
Proof.
  assert (G : forall (l pre : list A), map (fun i => nth i (pre ++ l ++ l') d) (seq (length pre) (length l)) = l).
  { induction l0 as [|x l0 IH]; intros pre; [reflexivity|]. cbn [length seq map]. f_equal.
    - rewrite app_nth2, Nat.sub_diag by lia. reflexivity.
    - specialize (IH (pre ++ x :: nil)). rewrite <- app_assoc, app_length, Nat.add_1_r in IH. exact IH. }
  apply (G l nil).
Qed.
Lemma half_fill1 L c f : (0 <= L)%Z ->
  half (fill 1 (L + 1) L f (upd (zeros L) 0 L c)) (fun n m => if (n =? 0)%Z then c else f n m).
Proof.
  intros HL l m Hl Hm. destruct (fill_spec 1 (L + 1) L f (upd (zeros L) 0 L c)) as [Ed Ea]; [lia|].
  unfold mom. rewrite Ed in *. cbn [deg zeros upd] in *. rewrite Ea. cbn [at_ zeros upd].
  replace (L + m - L)%Z with m by ring.
  destruct (Z.eqb_spec l 0).
  - subst. destruct (Z.eqb_spec (L + m) L), (Z.leb_spec 0 m), (Z.leb_spec m 0); try lia; cbn [andb]; reflexivity.
  - destruct (Z.leb_spec 1 l), (Z.ltb_spec l (L + 1)), (Z.leb_spec L (L + m)), (Z.leb_spec (L + m) (L + l)), (Z.leb_spec 0 m), (Z.leb_spec m l); try lia; reflexivity.
Qed.

Definition msum (rad : Z -> pt -> R) (l1 : list pt) (n m : Z) : C := lsum (fun p => RtoC (pm p * rad n p) * Cconj (Yp m n p)) l1.
Lemma mloop_sorted L rad l1 l2 q0 : List.Forall (fun p => nzp p = true) l1 -> List.Forall (fun p => nzp p = false) l2 ->
  mloop L (l1 ++ l2) rad q0 = Ok (fill 1 (L + 1) L (msum rad l1) q0).
Proof.
  intros H1 H2. assert (Er := rids_sorted l1 l2 H1 H2).
  rewrite (mloop_ok L (l1 ++ l2) rad q0 (phis (l1 ++ l2)) (thetas (l1 ++ l2))).
  2,3: unfold phis, thetas; rewrite Er; apply take_seq.
  f_equal. unfold fill. apply zfor_ext. intros n t Hn. apply zfor_ext. intros m t' Hm. f_equal.
  unfold thetas, phis. rewrite combine_map2, map_map, combine_map2, map_map. unfold csum. rewrite lsum_map. cbn [fst snd].
  rewrite Er. unfold msum. rewrite <- (map_nth_seq l1 l2 dummy) at 2. rewrite lsum_map. apply lsum_ext. intros i _. unfold Yp. ring.
Qed.
Lemma qmoments_sorted L l1 l2 : (0 <= L)%Z -> List.Forall (fun p => nzp p = true) l1 -> List.Forall (fun p => nzp p = false) l2 ->
  exists q, qmoments L (l1 ++ l2) = Ok q /\ deg q = L /\ holds q (inner_moment (l1 ++ l2)).
Proof.
  intros HL H1 H2. unfold qmoments. rewrite mloop_sorted by assumption. cbn [bind]. eexists. split; [reflexivity|].
  split; [rewrite deg_reflect, deg_fill by lia; reflexivity|].
  eapply holds_deg_ext; [|apply (reflect_holds _ (fun n m => if (n =? 0)%Z then csum (map (fun p => RtoC (pm p / sqrt (4 * PI))) (l1 ++ l2)) else msum (fun n p => vnorm (pp p) ^ Z.to_nat n)%R l1 n m));
     [apply half_fill1; exact HL|]].
  - cbv beta. intros l m Hl Hm. rewrite deg_reflect, deg_fill in Hl by lia.
    destruct (Z.eqb_spec l 0) as [->|Hl0].
    + replace m with 0%Z by lia. rewrite q00_csum. symmetry. apply inner00.
    + unfold msum, inner_moment. rewrite lsum_app.
      rewrite (lsum_0 _ l2).
      2:{ intros p Hp. rewrite Forall_forall in H2. apply H2, nzp_false in Hp. rewrite Hp, rsolid_origin by assumption. ring. }
      rewrite Cplus_0_r. apply lsum_ext. intros p Hp. rewrite Forall_forall in H1. apply H1, nzp_true in Hp.
      rewrite <- Yp_rsolid by assumption. rewrite RtoC_mult. ring.
  - cbv beta. intros l m Hm. destruct (Z.eqb_spec l 0) as [->|Hl0].
    + replace m with 0%Z by lia. rewrite q00_csum, sgnC_0, Cconj_RtoC. ring.
    + unfold msum. rewrite lsum_conj, <- lsum_scal. apply lsum_ext. intros p _. rewrite Yp_symm.
      rewrite !Cconj_mult, sgnC_conj, !Cconj_conj, Cconj_RtoC. ring.
Qed.
Lemma qmoments_good L ma : (0 <= L)%Z -> ~ origin_before_other ma ->
  exists q, qmoments L ma = Ok q /\ deg q = L /\ holds q (inner_moment ma).
Proof.
  intros HL Hb. destruct (sorted_or_bad ma) as [(l1 & l2 & -> & H1 & H2)|H]; [|contradiction].
  now apply qmoments_sorted.
Qed.
Lemma qmoments_bad L ma : (1 <= L)%Z -> origin_before_other ma -> qmoments L ma = Err IndexError.
Proof.
  intros HL Hb. unfold qmoments. rewrite mloop_err; [reflexivity|exact HL|].
  destruct (bad_not_ok ma Hb) as (i & Hi & Hle). apply (take_err _ _ i Hi). unfold phis. now rewrite map_length.
Qed.
Lemma qmoments_0 ma : exists q, qmoments 0 ma = Ok q /\ deg q = 0%Z /\ holds q (inner_moment ma).
Proof.
  unfold qmoments, mloop. rewrite zfor_empty by lia. cbn [bind]. eexists. split; [reflexivity|]. split; [reflexivity|].
  set (c := csum _).
  assert (H := half_fill1 0 c (fun _ _ => 0) (Z.le_refl 0)). unfold fill in H. rewrite zfor_empty in H by lia.
  eapply holds_deg_ext; [|apply (reflect_holds _ _ H)].
  - intros l m Hl Hm. cbn in Hl. assert (l = 0%Z) by lia. assert (m = 0%Z) by lia. subst. cbn [Z.eqb]. unfold c. rewrite q00_csum. symmetry. apply inner00.
  - intros l m Hm. cbv beta. destruct (Z.eqb_spec l 0) as [->|].
    + replace m with 0%Z by lia. unfold c. rewrite q00_csum, sgnC_0, Cconj_RtoC. ring.
    + rewrite Cconj_RtoC. ring.
Qed.

(* ---- outer moments ---------------------------------------------------------- *)
Lemma exists_origin ma : existsb is0 (rlist ma) = true <-> exists p, In p ma /\ at_origin p.
Proof.
  rewrite existsb_exists. unfold rlist. split.
  - intros (r & Hr & E). apply in_map_iff in Hr. destruct Hr as (p & <- & Hp). exists p. split; [exact Hp|].
    apply nzp_false. unfold nzp. now rewrite E.
  - intros (p & Hp & E). exists (vnorm (pp p)). split; [now apply (in_map (fun p => vnorm (pp p)))|].
    apply nzp_false in E. unfold nzp in E. now apply negb_false_iff in E.
Qed.
Lemma no_origin ma : (forall p, In p ma -> ~ at_origin p) -> existsb is0 (rlist ma) = false.
Proof.
  intros H. apply not_true_iff_false. intros E. apply exists_origin in E. destruct E as (p & Hp & E). exact (H p Hp E).
Qed.
Lemma not_origin_norm p : ~ at_origin p -> vnorm (pp p) <> 0%R.
Proof. intros H. apply nzp_true. destruct (nzp p) eqn:E; [reflexivity|]. apply nzp_false in E. contradiction. Qed.
Lemma Qmomentsb_good L ma : (0 <= L)%Z -> (forall p, In p ma -> ~ at_origin p) ->
  deg (Qmomentsb L ma) = L /\ holds (Qmomentsb L ma) (outer_moment ma).
Proof.
  intros HL H. unfold Qmomentsb. rewrite no_origin by assumption.
  split; [rewrite deg_reflect, deg_fill by lia; reflexivity|].
  rewrite (fill_ext 0 (L + 1) L _ (outer_moment ma)); [| lia |].
  - apply reflect_holds; [now apply half_fill|]. intros; apply outer_symm.
  - intros n m Hn Hm. unfold csum. rewrite lsum_map. unfold outer_moment. apply lsum_ext. intros p Hp.
    rewrite <- Yp_isolid by (lia || now apply not_origin_norm, H). unfold Yp, Cdiv. ring.
Qed.
Lemma Qmomentsb_bad L ma : (exists p, In p ma /\ at_origin p) -> Qmomentsb L ma = zeros L.
Proof. intros H. apply exists_origin in H. unfold Qmomentsb. now rewrite H. Qed.
Lemma Qmomentb_good l m ma : (Z.abs m <= l)%Z -> (forall p, In p ma -> ~ at_origin p) -> Qmomentb l m ma = outer_moment ma l m.
Proof.
  intros Hm H. unfold Qmomentb. rewrite no_origin by assumption. unfold csum. rewrite lsum_map. apply lsum_ext. intros p Hp.
  rewrite <- Yp_isolid by (lia || now apply not_origin_norm, H). unfold Yp, Cdiv. ring.
Qed.

(* ---- qmoment: numpy broadcasting --------------------------------------------- *)
Lemma filter_seq_nth (f : pt -> bool) (ma : list pt) :
  map (fun i => nth i ma dummy) (filter (fun i => f (nth i ma dummy)) (seq 0 (length ma))) = filter f ma.
Proof.
  assert (G : forall l pre, map (fun i => nth i (pre ++ l) dummy) (filter (fun i => f (nth i (pre ++ l) dummy)) (seq (length pre) (length l))) = filter f l).
  { induction l as [|x l IH]; intros pre; [reflexivity|]. cbn [length seq filter].
    assert (E : nth (length pre) (pre ++ x :: l) dummy = x) by (rewrite app_nth2, Nat.sub_diag by lia; reflexivity).
    rewrite E. specialize (IH (pre ++ x :: nil)). rewrite <- app_assoc, app_length, Nat.add_1_r in IH. cbn [app] in IH.
    destruct (f x); cbn [map]; rewrite ?E, IH; reflexivity. }
  apply (G ma nil).
Qed.
Lemma ths_phs ma : combine (thetas ma) (phis ma) = map (fun p => (th_of p, ph_of p)) (filter nzp ma).
Proof.
  unfold thetas, phis. rewrite combine_map2. rewrite <- filter_seq_nth, map_map. f_equal.
  unfold rids. apply filter_ext. intros i. now rewrite nth_rlist.
Qed.
Lemma lsum_filter_nz (g : pt -> C) ma : (forall p, In p ma -> at_origin p -> g p = 0) -> lsum g (filter nzp ma) = lsum g ma.
Proof.
  induction ma as [|p ma IH]; intros H; [reflexivity|]. cbn [filter lsum].
  destruct (nzp p) eqn:E; cbn [lsum]; rewrite IH by (intros; apply H; [now right|assumption]); [reflexivity|].
  rewrite (H p); [ring|now left|now apply nzp_false].
Qed.
Lemma filter_all {A} (f : A -> bool) l : length (filter f l) = length l -> filter f l = l.
Proof.
  induction l as [|x l IH]; [reflexivity|]. cbn [filter].
  assert (Hle : (length (filter f l) <= length l)%nat) by (clear; induction l as [|y l IH]; [auto|cbn [filter length]; destruct (f y); cbn [length]; lia]).
  destruct (f x); cbn [length]; intros E; [f_equal; apply IH; lia|lia].
Qed.
(* count of points away from the origin *)
Definition noff (ma : list pt) : nat := length (filter nzp ma).
Lemma qmoment_spec l m ma : (1 <= l)%Z -> (Z.abs m <= l)%Z ->
  qmoment l m ma = if (Nat.eqb (noff ma) (length ma) || Nat.eqb (noff ma) 1 || Nat.eqb (length ma) 1)%bool
                   then Ok (inner_moment ma l m) else Err ValueError.
Proof.
  intros Hl Hm. unfold qmoment. destruct (Z.eqb_spec l 0); [lia|].
  rewrite ths_phs, map_map. cbn [fst snd]. unfold bcast2. rewrite !map_length. fold (noff ma).
  assert (Hg : forall p, nzp p = true -> RtoC (pm p * vnorm (pp p) ^ Z.to_nat l) * Cconj (Yp m l p) = RtoC (pm p) * rsolid l m (pp p)).
  { intros p Hp. apply nzp_true in Hp. rewrite <- Yp_rsolid by assumption. rewrite RtoC_mult. ring. }
  assert (Hz : forall p, nzp p = false -> RtoC (pm p * vnorm (pp p) ^ Z.to_nat l) = 0).
  { intros p Hp. apply nzp_false in Hp. rewrite Hp, vnorm_v0. rewrite pow_i by lia. rewrite Rmult_0_r. reflexivity. }
  rewrite (Nat.eqb_sym (length ma) (noff ma)).
  destruct (Nat.eqb_spec (noff ma) (length ma)) as [E|E]; cbn [orb].
  - unfold noff in E. apply filter_all in E. rewrite E. rewrite combine_map2, map_map. cbn [bind fst snd].
    unfold csum. rewrite lsum_map. f_equal. apply lsum_ext. intros p Hp. apply Hg. rewrite <- E in Hp. now apply filter_In in Hp.
  - destruct ma as [|p [|p' ma]].
    + exfalso. apply E. reflexivity.
    + cbn [map length]. rewrite Nat.eqb_refl, orb_true_r.
      unfold noff in E. cbn [filter length] in *. destruct (nzp p) eqn:Ep; [cbn in E; lia|]. cbn [map].
      cbn [bind]. unfold csum, inner_moment. cbn [lsum map]. apply nzp_false in Ep. rewrite Ep, rsolid_origin by lia. f_equal. ring.
    + set (ma' := p :: p' :: ma) in *. change (length ma') with (S (S (length ma))) in *.
      replace (Nat.eqb (S (S (length ma))) 1) with false by reflexivity. rewrite orb_false_r.
      unfold noff in *. destruct (filter nzp ma') as [|q [|q' r]] eqn:Ef.
      * cbn. reflexivity.
      * cbn [length]. rewrite Nat.eqb_refl. unfold ma'. cbn [map]. cbn [bind]. f_equal.
        change (RtoC (pm p * vnorm (pp p) ^ Z.to_nat l) :: RtoC (pm p' * vnorm (pp p') ^ Z.to_nat l) :: map (fun p => RtoC (pm p * vnorm (pp p) ^ Z.to_nat l)) ma)
          with (map (fun p => RtoC (pm p * vnorm (pp p) ^ Z.to_nat l)) ma').
        fold (Yp m l q). unfold csum.
        transitivity (lsum (fun p => RtoC (pm p * vnorm (pp p) ^ Z.to_nat l) * Cconj (Yp m l q)) (filter nzp ma')).
        { rewrite lsum_filter_nz.
          - unfold ma'. cbn [map lsum]. rewrite map_map, lsum_map. reflexivity.
          - intros x _ Hx. apply nzp_false in Hx. rewrite Hz by assumption. ring. }
        rewrite Ef. unfold inner_moment. rewrite <- (lsum_filter_nz _ ma').
        -- rewrite Ef. cbn [lsum]. rewrite Hg; [reflexivity|].
           assert (Hin : In q (filter nzp ma')) by (rewrite Ef; now left). now apply filter_In in Hin.
        -- intros x _ Hx. rewrite Hx, rsolid_origin by lia. ring.
      * cbn. reflexivity.
Qed.
Lemma qmoment_0 ma : qmoment 0 0 ma = Ok (inner_moment ma 0 0).
Proof. unfold qmoment. cbn [Z.eqb]. now rewrite q00_csum, inner00. Qed.

(* ---- Yukawa inner moments ------------------------------------------------------ *)
Lemma imoments_sorted bes L lmbd l1 l2 : (0 <= L)%Z ->
  List.Forall (fun p => nzp p = true) l1 -> List.Forall (fun p => nzp p = false) l2 ->
  exists q, imoments bes L lmbd (l1 ++ l2) = Ok q /\ deg q = L /\
    holds q (fun n m => if (n =? 0)%Z
       then lsum (fun p => RtoC (pm p * bes 0%Z (vnorm (pp p) / lmbd)%R / sqrt (4 * PI))) (l1 ++ l2)
       else lsum (fun p => RtoC (pm p * bes L (vnorm (pp p) / lmbd)%R) * Cconj (Yp m n p)) l1).
Proof.
  intros HL H1 H2. unfold imoments. rewrite mloop_sorted by assumption. cbn [bind]. eexists. split; [reflexivity|].
  split; [rewrite deg_reflect, deg_fill by lia; reflexivity|]. unfold csum. rewrite lsum_map.
  apply reflect_holds; [apply (half_fill1 L _ (msum _ l1)); exact HL|].
  intros l m Hm. cbv beta. destruct (Z.eqb_spec l 0) as [->|Hl0].
  - replace m with 0%Z by lia. rewrite sgnC_0, Cmult_1_l, lsum_conj. apply lsum_ext. intros. now rewrite Cconj_RtoC.
  - rewrite lsum_conj, <- lsum_scal. apply lsum_ext. intros p _. rewrite Yp_symm.
    rewrite !Cconj_mult, sgnC_conj, !Cconj_conj, Cconj_RtoC. ring.
Qed.

(* ---- additivity ------------------------------------------------------------------ *)
Lemma inner_app l1 l2 l m : inner_moment (l1 ++ l2) l m = inner_moment l1 l m + inner_moment l2 l m.
Proof. apply lsum_app. Qed.
Lemma inner_scale c pts l m : inner_moment (map (scale_mass c) pts) l m = RtoC c * inner_moment pts l m.
Proof.
  unfold inner_moment. rewrite lsum_map, <- lsum_scal. apply lsum_ext. intros p _. unfold scale_mass; cbn [pm pp].
  rewrite RtoC_mult. ring.
Qed.
Lemma inner_perm p1 p2 l m : Permutation p1 p2 -> inner_moment p1 l m = inner_moment p2 l m.
Proof. apply lsum_perm. Qed.
Lemma outer_app l1 l2 l m : outer_moment (l1 ++ l2) l m = outer_moment l1 l m + outer_moment l2 l m.
Proof. apply lsum_app. Qed.
Lemma outer_scale c pts l m : outer_moment (map (scale_mass c) pts) l m = RtoC c * outer_moment pts l m.
Proof.
  unfold outer_moment. rewrite lsum_map, <- lsum_scal. apply lsum_ext. intros p _. unfold scale_mass; cbn [pm pp].
  rewrite RtoC_mult. ring.
Qed.
Lemma outer_perm p1 p2 l m : Permutation p1 p2 -> outer_moment p1 l m = outer_moment p2 l m.
Proof. apply lsum_perm. Qed.

(* ---- spherical-coordinate form ---------------------------------------------------- *)
Lemma inner_sph S l m : (Z.abs m <= l)%Z -> (forall s, In s S -> 0 <= s_th s <= PI)%R ->
  inner_moment (map cart S) l m = lsum (fun s => RtoC (s_m s * s_r s ^ Z.to_nat l) * Cconj (sph_harm m l (s_ph s) (s_th s))) S.
Proof.
  intros Hm H. unfold inner_moment. rewrite lsum_map. apply lsum_ext. intros s Hs. unfold cart; cbn [pm pp rsolid].
  rewrite <- sph_harm_solid by (auto || now apply H). rewrite RtoC_mult. ring.
Qed.
Lemma vnorm_cart s : (0 <= s_r s)%R -> vnorm (pp (cart s)) = s_r s.
Proof.
  intros H. unfold cart; cbn [pp]. rewrite vnorm_xyz. 
  replace ((s_r s * sin (s_th s) * cos (s_ph s)) ^ 2 + (s_r s * sin (s_th s) * sin (s_ph s)) ^ 2 + (s_r s * cos (s_th s)) ^ 2)%R
    with (s_r s * s_r s)%R; [now apply sqrt_square|].
  assert (E1 := sin2_cos2 (s_th s)). assert (E2 := sin2_cos2 (s_ph s)). unfold Rsqr in *.
  transitivity (s_r s * s_r s * ((sin (s_th s) * sin (s_th s)) * (sin (s_ph s) * sin (s_ph s) + cos (s_ph s) * cos (s_ph s)) + cos (s_th s) * cos (s_th s)))%R.
  - rewrite E2, Rmult_1_r, E1. ring.
  - ring.
Qed.
Lemma outer_sph S l m : (Z.abs m <= l)%Z -> (forall s, In s S -> 0 <= s_th s <= PI /\ 0 < s_r s)%R ->
  outer_moment (map cart S) l m = lsum (fun s => RtoC (s_m s / s_r s ^ Z.to_nat (l + 1)) * sph_harm m l (s_ph s) (s_th s)) S.
Proof.
  intros Hm H. unfold outer_moment. rewrite lsum_map. apply lsum_ext. intros s Hs. destruct (H s Hs) as [Ht Hr].
  unfold isolid. rewrite vnorm_cart by lra. unfold cart at 1 2; cbn [pm pp rsolid].
  rewrite <- sph_harm_solid by auto. rewrite Cconj_mult, Cconj_conj, Cconj_RtoC.
  replace (Z.to_nat (2 * l + 1)) with (Z.to_nat l + Z.to_nat (l + 1))%nat by lia. rewrite pow_add, RtoC_mult.
  rewrite RtoC_div by (apply pow_nonzero; lra).
  field. split; apply RtoC_neq0; apply pow_nonzero; lra.
Qed.
