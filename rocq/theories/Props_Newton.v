(* C46: the multipole interaction of two sets of point masses, one inside the other, tends to
   their Newtonian interaction as the maximum degree grows. *)
From Coq Require Import Reals Lra Lia ZArith List.
From Verif Require Import Props_Glib Props_Moments Props_Multipole Props_Torque Addition Legendre TransRecProofs RotationsProofs2 RotSpec TransSpec GlibProofs GlibProofs2 NewtonSpec Newton CDeriv MultipoleLib MultipoleProofs MultipoleProofs2.
From Verif Require Import Cplx.
Open Scope C_scope.

Lemma zrot_moves x : moves zrot x (fun v => let '(a, b, _) := v in (- sin x * a - cos x * b, cos x * a - sin x * b, 0)%R).
Proof.
  intros [[a b] c]. split.
  - intros [[u v] w]. unfold zrot, vdot. auto_derive; [trivial|]. ring.
  - unfold vsq, zrot, vdot. auto_derive; [trivial|]. ring.
Qed.
Lemma turned_at phi P : turned phi P = carried (zrot phi) P.
Proof. reflexivity. Qed.
Lemma moved_at t P : map (moved t) P = carried (fun v => vadd v t) P.
Proof. reflexivity. Qed.
Lemma inside_turned phi P S : inside P S -> inside (turned phi P) S.
Proof.
  intros [H0 H]. split; [exact H0|]. intros p s Hp Hs. unfold turned in Hp. apply in_map_iff in Hp. destruct Hp as (p0 & <- & Hp). cbn [pp]. rewrite vnorm_zrot. now apply H.
Qed.
Lemma inside_turned_r phi P S : inside P S -> inside P (turned phi S).
Proof.
  intros [H0 H]. unfold turned. split.
  - intros s Hs. apply in_map_iff in Hs. destruct Hs as (p0 & <- & Hs). cbn [pp]. rewrite vnorm_zrot. now apply H0.
  - intros p s Hp Hs. apply in_map_iff in Hs. destruct Hs as (p0 & <- & Hs). cbn [pp]. rewrite vnorm_zrot. now apply H.
Qed.
Lemma rotate_turned P phi : rotate_point_array (Rows P) phi (0, 0, 1)%R = Ok (Rows (turned phi P)).
Proof.
  rewrite rotate_array_spec by (intros E; injection E; lra). f_equal. f_equal. apply map_ext. intros p. f_equal. destruct (pp p) as [[x y] z]. now rewrite axis_rot_z.
Qed.
Lemma translate_moved P t : translate_point_array (Rows P) t = Rows (map (moved t) P).
Proof. reflexivity. Qed.

(* the energy *)
Theorem C46_potential : forall P S c, inside P S ->
  is_lim_seq (fun L => Re (work c (Z.of_nat L) (inner_moment P) (outer_moment S))) (newton_work c P S)
  /\ forall L, Im (work c (Z.of_nat L) (inner_moment P) (outer_moment S)) = 0%R.
Proof.
  intros P S c H. split.
  - apply (is_lim_seq_ext (fun L => wsum c L P S)); [|now apply wsum_lim]. intros L. now rewrite work_wsum by (eapply inside_origin; eassumption).
  - intros L. now rewrite work_wsum by (eapply inside_origin; eassumption).
Qed.
Print Assumptions C46_potential.

(* derivative of the energy at one degree: value of any derivative *)
Lemma cder_work c L P S g x w d : inside (carried (g x) P) S -> moves g x w ->
  cder (fun t => work c (Z.of_nat L) (inner_moment (carried (g t) P)) (outer_moment S)) x d -> d = RtoC (dsum c L P S (g x) w).
Proof.
  intros H M [D1 D2]. assert (O := inside_origin _ _ H).
  assert (E : forall t, work c (Z.of_nat L) (inner_moment (carried (g t) P)) (outer_moment S) = RtoC (wsum c L (carried (g t) P) S)) by (intros; now apply work_wsum).
  apply C_eq; cbn [Re Im fst snd RtoC].
  - assert (D3 := wsum_der c L P S g x w M). apply is_derive_unique in D3. rewrite <- D3. symmetry. apply is_derive_unique.
    eapply is_derive_ext; [|exact D1]. intros t. cbv beta. now rewrite E.
  - apply is_derive_unique in D2. rewrite <- D2. transitivity (Derive (fun _ => 0%R) x); [|apply Derive_const]. apply Derive_ext. intros t. now rewrite E.
Qed.
Lemma lsr_0 {A} (l : list A) : lsr (fun _ => 0%R) l = 0%R.
Proof. unfold lsr. induction l as [|x l IH]; cbn; [reflexivity|]. rewrite IH. ring. Qed.
Lemma zcomp_dot v : zcomp v = vdot (0, 0, 1)%R v.
Proof. destruct v as [[x y] z]. unfold zcomp, vdot. ring. Qed.
Lemma turn_power phi P S :
  lsr (fun p => vdot (let '(a, b, _) := pp p in (- sin phi * a - cos phi * b, cos phi * a - sin phi * b, 0)%R) (vS (fun s => pf wG (mkpt (pm p) (zrot phi (pp p))) s) S)) P
  = zcomp (totT wG (turned phi P) S).
Proof.
  rewrite turned_at, totT_at, zcomp_dot, vdot_vS. apply lsr_ext. intros p _. destruct (vS _ S) as [[f1 f2] f3]. destruct (pp p) as [[a b] c]. unfold zrot, vcross, vdot. ring.
Qed.
Lemma dsum_turn_lim P S phi : inside P S ->
  is_lim_seq (fun L => dsum BIG_G L P S (zrot phi) (fun v => let '(a, b, _) := v in (- sin phi * a - cos phi * b, cos phi * a - sin phi * b, 0)%R)) (zcomp (totT wG (turned phi P) S)).
Proof.
  intros H. rewrite <- turn_power.
  rewrite <- (power_pf (fun v => let '(a, b, _) := v in (- sin phi * a - cos phi * b, cos phi * a - sin phi * b, 0)%R)). apply dsum_lim. now apply (inside_turned phi).
Qed.

(* the torque about z when the inner body is turned by phi, and when the outer one is *)
Theorem C46_torque : forall P S phi, inside P S -> ~ origin_before_other P ->
  exists t, (forall L : nat, exists q nlm nc ns, qmoments (Z.of_nat L) P = Ok q /\ torque_lm q (Qmomentsb (Z.of_nat L) S) BIG_G = Ok (nlm, nc, ns)
               /\ torques_at_angle nc ns phi false = Ok (t L))
  /\ exists P' F T, rotate_point_array (Rows P) phi (0, 0, 1)%R = Ok P' /\ point_matrix_gravity P' (Rows S) = Ok (F, T) /\ is_lim_seq t (zcomp T).
Proof.
  intros P S phi H Ho.
  exists (fun L => dsum BIG_G L P S (zrot phi) (fun v => let '(a, b, _) := v in (- sin phi * a - cos phi * b, cos phi * a - sin phi * b, 0)%R)). split.
  - intros L. destruct (C08_qmoments (Z.of_nat L) P ltac:(lia) Ho) as (q & Eq & Dq & Hq).
    destruct (C10_Qmomentsb (Z.of_nat L) S ltac:(lia) (inside_origin _ _ H)) as [DQ HQ].
    destruct (torque_lm_ok q (Qmomentsb (Z.of_nat L) S) BIG_G ltac:(lia) ltac:(lia)) as (nlm & nc & ns & E & _).
    exists q, nlm, nc, ns. split; [exact Eq|]. split; [exact E|].
    destruct (C31_torque_on_a_turning_body q (Qmomentsb (Z.of_nat L) S) P S BIG_G nlm nc ns phi ltac:(lia) ltac:(lia) Hq HQ E) as [(t & Et & Dt) _].
    rewrite Et. f_equal. rewrite Dq in Dt. apply (cder_work BIG_G L P S zrot phi _ (RtoC t) (inside_turned phi P S H) (zrot_moves phi)) in Dt. now apply RtoC_inj in Dt.
  - exists (Rows (turned phi P)), (totF wG (turned phi P) S), (totT wG (turned phi P) S). split; [apply rotate_turned|]. split; [|now apply dsum_turn_lim].
    apply gravity_inside. now apply inside_turned.
Qed.
Print Assumptions C46_torque.
Theorem C46_torque_outer : forall P S phi, inside P S -> ~ origin_before_other P ->
  exists t, (forall L : nat, exists q nlm nc ns, qmoments (Z.of_nat L) P = Ok q /\ torque_lm q (Qmomentsb (Z.of_nat L) S) BIG_G = Ok (nlm, nc, ns)
               /\ torques_at_angle nc ns phi true = Ok (t L))
  /\ exists S' F T, rotate_point_array (Rows S) phi (0, 0, 1)%R = Ok S' /\ point_matrix_gravity (Rows P) S' = Ok (F, T) /\ is_lim_seq t (zcomp T).
Proof.
  intros P S phi H Ho. assert (H' := inside_turned_r phi P S H).
  exists (fun L => dsum BIG_G L P (turned phi S) (zrot 0) (fun v => let '(a, b, _) := v in (- sin 0 * a - cos 0 * b, cos 0 * a - sin 0 * b, 0)%R)). split.
  - intros L. destruct (C08_qmoments (Z.of_nat L) P ltac:(lia) Ho) as (q & Eq & Dq & Hq).
    destruct (C10_Qmomentsb (Z.of_nat L) S ltac:(lia) (inside_origin _ _ H)) as [DQ HQ].
    destruct (torque_lm_ok q (Qmomentsb (Z.of_nat L) S) BIG_G ltac:(lia) ltac:(lia)) as (nlm & nc & ns & E & _).
    exists q, nlm, nc, ns. split; [exact Eq|]. split; [exact E|].
    destruct (C31_torque_on_a_turning_body q (Qmomentsb (Z.of_nat L) S) P S BIG_G nlm nc ns phi ltac:(lia) ltac:(lia) Hq HQ E) as [_ (t & Et & Dt)].
    rewrite Et. f_equal. rewrite Dq in Dt. apply (cder_work BIG_G L P (turned phi S) zrot 0 _ (RtoC t) (inside_turned 0 P _ H') (zrot_moves 0)) in Dt. now apply RtoC_inj in Dt.
  - exists (Rows (turned phi S)), (totF wG P (turned phi S)), (totT wG P (turned phi S)). split; [apply rotate_turned|]. split; [now apply gravity_inside|].
    replace (totT wG P (turned phi S)) with (totT wG (turned 0 P) (turned phi S)); [now apply dsum_turn_lim|]. f_equal.
    unfold turned. rewrite <- (map_id P) at 2. apply map_ext. intros [m [[x y] z]]. cbn [pm pp]. unfold zrot. rewrite cos_0, sin_0. f_equal. apply v3; ring.
Qed.

(* the force on the inner body shifted by (x, y, z) *)
Lemma lin_moves (g : R -> vec -> vec) (x : R) e : (forall t v, g t v = vadd (g 0%R v) (vscal t e)) -> moves g x (fun _ => e).
Proof.
  intros H v. destruct e as [[e1 e2] e3]. destruct (g 0%R v) as [[a b] c] eqn:E.
  assert (G : forall t, g t v = (a + t * e1, b + t * e2, c + t * e3)%R) by (intros t; rewrite H, E; reflexivity). split.
  - intros [[u1 u2] u3]. eapply is_derive_ext; [intros t; symmetry; rewrite G; reflexivity|]. unfold vdot. auto_derive; [trivial|]. ring.
  - eapply is_derive_ext; [intros t; symmetry; rewrite G; reflexivity|]. rewrite G. unfold vsq, vdot. auto_derive; [trivial|]. ring.
Qed.
Lemma carried_ext g h P : (forall v, g v = h v) -> carried g P = carried h P.
Proof. intros H. unfold carried. apply map_ext. intros p. now rewrite H. Qed.
Theorem C46_force : forall P S x y z, inside (map (moved (x, y, z)%R) P) S -> ~ origin_before_other P ->
  exists f, (forall L : nat, (1 <= L)%nat -> exists q, qmoments (Z.of_nat L) P = Ok q /\
               multipole_force (Z.of_nat L) q (Qmomentsb (Z.of_nat L) S) x y z BIG_G = Ok (f L))
  /\ all_real f
  /\ exists F T, point_matrix_gravity (translate_point_array (Rows P) (x, y, z)%R) (Rows S) = Ok (F, T) /\ tends f F.
Proof.
  intros P S x y z H Ho. set (v := (x, y, z)%R : vec). set (g := fun u : vec => vadd u v).
  exists (fun L => (RtoC (dsum BIG_G L P S g (fun _ => (1, 0, 0)%R)), RtoC (dsum BIG_G L P S g (fun _ => (0, 1, 0)%R)), RtoC (dsum BIG_G L P S g (fun _ => (0, 0, 1)%R)))).
  split; [|split].
  - intros L HL. destruct (C08_qmoments (Z.of_nat L) P ltac:(lia) Ho) as (q & Eq & Dq & Hq). exists q. split; [exact Eq|].
    destruct (C10_Qmomentsb (Z.of_nat L) S ltac:(lia) (inside_origin _ _ H)) as [DQ HQ].
    destruct (C30_force_on_a_body q (Qmomentsb (Z.of_nat L) S) P x y z BIG_G ltac:(lia) ltac:(lia) Hq ltac:(lia)) as (fx & fy & fz & E & G1 & G2 & G3).
    rewrite Dq in *. rewrite E. f_equal.
    assert (W : forall u, work BIG_G (Z.of_nat L) (inner_moment (map (moved u) P)) (mom (Qmomentsb (Z.of_nat L) S)) = work BIG_G (Z.of_nat L) (inner_moment (map (moved u) P)) (outer_moment S)).
    { intros u. unfold work. f_equal. apply pairing_ext; [reflexivity|]. intros l m Hl Hm. apply HQ; lia. }
    assert (K : forall (gt : R -> vec -> vec) (x0 : R) e d, (forall u, gt x0 u = g u) -> (forall t u, gt t u = vadd (gt 0%R u) (vscal t e)) ->
      cder (fun t => work BIG_G (Z.of_nat L) (inner_moment (carried (gt t) P)) (outer_moment S)) x0 d -> d = RtoC (dsum BIG_G L P S g (fun _ => e))).
    { intros gt x0 e d Eg Hl D. apply cder_work with (w := fun _ => e) in D.
      - rewrite D. f_equal. unfold dsum. apply lsr_ext. intros p _. now rewrite Eg.
      - rewrite (carried_ext (gt x0) g) by exact Eg. exact H.
      - now apply lin_moves. }
    f_equal; [f_equal|].
    + apply (K (fun t u => vadd u (t, y, z)%R) x (1, 0, 0)%R); [reflexivity| |].
      * intros t [[a b] c]. unfold vadd, vscal. apply v3; ring.
      * eapply cder_ext; [|exact G1]. intros t. cbv beta. now rewrite W.
    + apply (K (fun t u => vadd u (x, t, z)%R) y (0, 1, 0)%R); [reflexivity| |].
      * intros t [[a b] c]. unfold vadd, vscal. apply v3; ring.
      * eapply cder_ext; [|exact G2]. intros t. cbv beta. now rewrite W.
    + apply (K (fun t u => vadd u (x, y, t)%R) z (0, 0, 1)%R); [reflexivity| |].
      * intros t [[a b] c]. unfold vadd, vscal. apply v3; ring.
      * eapply cder_ext; [|exact G3]. intros t. cbv beta. now rewrite W.
  - intros L. cbn [fst snd]. now split; [|split].
  - exists (totF wG (map (moved v) P) S), (totT wG (map (moved v) P) S). split; [now apply gravity_inside|].
    rewrite moved_at. fold g. assert (B : forall e, is_lim_seq (fun L => dsum BIG_G L P S g (fun _ => e)) (vdot e (totF wG (carried g P) S))).
    { intros e. rewrite totF_at, vdot_vS. rewrite <- (power_pf (fun _ => e) g P S). apply dsum_lim. exact H. }
    destruct (totF wG (carried g P) S) as [[f1 f2] f3] eqn:E. unfold tends. cbn [fst snd].
    split; [|split]; cbn [Re RtoC fst].
    + replace f1 with (vdot (1, 0, 0)%R (f1, f2, f3)) by (unfold vdot; ring). apply B.
    + replace f2 with (vdot (0, 1, 0)%R (f1, f2, f3)) by (unfold vdot; ring). apply B.
    + replace f3 with (vdot (0, 0, 1)%R (f1, f2, f3)) by (unfold vdot; ring). apply B.
Qed.
Print Assumptions C46_force.
(* how fast: after degree L the energy of a pair is wrong by at most  (r/R)^(L+1) / (R - r) *)
Lemma rterm_bound v V n : (vnorm v < vnorm V)%R -> (Rabs (rterm v V n) <= (vnorm v / vnorm V) ^ n)%R.
Proof.
  intros H. assert (H0 := vnorm_ge0 v). unfold rterm. rewrite Rabs_mult, <- kk. assert (Hv := vsq_pos V (HV0 v V H)).
  assert (B := HL_bound (vdot v V) (vnorm v * vnorm V) n (k_ge0 v V) (Newton.cauchy v V H)).
  rewrite (Rabs_pos_eq (_ ^ n)) by (apply pow_le, Rlt_le, Rinv_0_lt_compat, Hv).
  replace ((vnorm v / vnorm V) ^ n)%R with ((vnorm v * vnorm V) ^ n * (/ vsq V) ^ n)%R.
  - apply Rmult_le_compat_r; [apply pow_le, Rlt_le, Rinv_0_lt_compat, Hv|exact B].
  - rewrite <- Rpow_mult_distr. f_equal. rewrite <- vnorm_sq. field. lra.
Qed.
Lemma sum_tail (a : nat -> R) q N j : (0 <= q < 1)%R -> (forall n, Rabs (a n) <= q ^ n)%R ->
  (Rabs (sum_n a (N + j) - sum_n a N) <= q ^ S N * (1 - q ^ j) / (1 - q))%R.
Proof.
  intros Hq Ha. induction j as [|j IH].
  - rewrite Nat.add_0_r. replace (sum_n a N - sum_n a N)%R with 0%R by ring. rewrite Rabs_R0. simpl. apply Req_le. field. lra.
  - replace (N + S j)%nat with (S (N + j)) by lia. rewrite sum_Sn. unfold plus; cbn -[sum_n pow].
    replace (sum_n a (N + j) + a (S (N + j)) - sum_n a N)%R with ((sum_n a (N + j) - sum_n a N) + a (S (N + j)))%R by ring.
    eapply Rle_trans; [apply Rabs_triang|]. eapply Rle_trans; [apply Rplus_le_compat; [exact IH|apply Ha]|]. apply Req_le.
    replace (S (N + j)) with (S N + j)%nat by lia. rewrite pow_add. change (q ^ S j)%R with (q * q ^ j)%R. field. lra.
Qed.
Lemma lsr_le {A} (f g : A -> R) l : (forall x, In x l -> Rabs (f x) <= g x)%R -> (Rabs (lsr f l) <= lsr g l)%R.
Proof.
  unfold lsr. induction l as [|x l IH]; intros H; cbn; [rewrite Rabs_R0; lra|]. eapply Rle_trans; [apply Rabs_triang|]. apply Rplus_le_compat; [apply H; now left|].
  apply IH. intros; apply H; now right.
Qed.
Lemma lsr_minus {A} (f g : A -> R) l : (lsr f l - lsr g l = lsr (fun x => f x - g x) l)%R.
Proof. unfold lsr. induction l as [|x l IH]; cbn; [ring|]. rewrite <- IH. ring. Qed.
Lemma pair_rate v V N : (vnorm v < vnorm V)%R -> (Rabs (sum_n (rterm v V) N / vnorm V - / vnorm (vsub V v)) <= (vnorm v / vnorm V) ^ S N / (vnorm V - vnorm v))%R.
Proof.
  intros H. assert (H0 := vnorm_ge0 v). set (q := (vnorm v / vnorm V)%R).
  assert (Hq : (0 <= q < 1)%R). { unfold q. split; [apply Rmult_le_pos; [exact H0|apply Rlt_le, Rinv_0_lt_compat; lra]|]. apply (Rmult_lt_reg_r (vnorm V)); [lra|]. unfold Rdiv. rewrite Rmult_assoc, Rinv_l by lra. lra. }
  assert (L := lim_pot v V H). apply (is_lim_seq_incr_n _ N) in L.
  assert (L2 : is_lim_seq (fun j => Rabs (sum_n (rterm v V) N / vnorm V - sum_n (rterm v V) (j + N) / vnorm V)) (Rabs (sum_n (rterm v V) N / vnorm V - / vnorm (vsub V v)))).
  { apply (is_lim_seq_abs _ (sum_n (rterm v V) N / vnorm V - / vnorm (vsub V v))%R). apply (is_lim_seq_minus' _ _ (sum_n (rterm v V) N / vnorm V)%R); [apply is_lim_seq_const|exact L]. }
  refine (is_lim_seq_le _ _ _ _ _ L2 (is_lim_seq_const _)). intros j. cbv beta.
  replace (sum_n (rterm v V) N / vnorm V - sum_n (rterm v V) (j + N) / vnorm V)%R with (- (sum_n (rterm v V) (N + j) - sum_n (rterm v V) N) * / vnorm V)%R.
  2:{ rewrite (Nat.add_comm j N). unfold Rdiv. match goal with |- @eq _ ?x ?y => change (@eq R x y) end. ring. }
  rewrite Rabs_mult, Rabs_Ropp. assert (T := sum_tail (rterm v V) q N j Hq (fun n => rterm_bound v V n H)).
  rewrite (Rabs_pos_eq (/ vnorm V)) by (apply Rlt_le, Rinv_0_lt_compat; lra).
  apply Rle_trans with (q ^ S N * (1 - q ^ j) / (1 - q) * / vnorm V)%R; [apply Rmult_le_compat_r; [apply Rlt_le, Rinv_0_lt_compat; lra|exact T]|].
  replace (q ^ S N / (vnorm V - vnorm v))%R with (q ^ S N * 1 / (1 - q) * / vnorm V)%R.
  - apply Rmult_le_compat_r; [apply Rlt_le, Rinv_0_lt_compat; lra|]. unfold Rdiv. apply Rmult_le_compat_r; [apply Rlt_le, Rinv_0_lt_compat; lra|].
    apply Rmult_le_compat_l; [apply pow_le; lra|]. assert (0 <= q ^ j)%R by (apply pow_le; lra). lra.
  - unfold q at 2. set (Q := (q ^ S N)%R). field; repeat split; lra.
Qed.
Theorem C46_rate : forall P S c (L : nat), inside P S ->
  (Rabs (Re (work c (Z.of_nat L) (inner_moment P) (outer_moment S)) - newton_work c P S)
   <= lsr (fun p => lsr (fun s => Rabs (c * pm p * pm s) * ((vnorm (pp p) / vnorm (pp s)) ^ (L + 1) / (vnorm (pp s) - vnorm (pp p)))) S) P)%R.
Proof.
  intros P S c L H. rewrite work_wsum by (eapply inside_origin; eassumption). cbn [Re RtoC fst]. unfold wsum, newton_work. rewrite lsr_minus. apply lsr_le. intros p Hp. rewrite lsr_minus. apply lsr_le. intros s Hs.
  assert (B := pair_rate (pp p) (pp s) L (proj2 H p s Hp Hs)). rewrite Nat.add_1_r.
  unfold Rdiv at 2. rewrite <- Rmult_minus_distr_l, Rabs_mult. apply Rmult_le_compat_l; [apply Rabs_pos|exact B].
Qed.
Print Assumptions C46_rate.
Example C46_case : let P := (mkpt 1 (1, 0, 0)%R :: mkpt 3 v0 :: nil) in let S := (mkpt 2 (0, 3, 0)%R :: nil) in
  inside P S /\ inside (map (moved (0, 1, 1)%R) P) S /\ ~ origin_before_other P /\ newton_work 1 P S <> 0%R.
Proof.
  assert (N : forall x y z : R, vnorm (x, y, z) = sqrt (x * x + y * y + z * z)) by (intros; unfold vnorm; f_equal; ring).
  assert (N3 : vnorm (0, 3, 0)%R = 3%R) by (rewrite N; replace (0 * 0 + 3 * 3 + 0 * 0)%R with (3 * 3)%R by ring; apply sqrt_square; lra).
  assert (LT : forall x y z : R, (x * x + y * y + z * z < 9)%R -> (vnorm (x, y, z) < 3)%R).
  { intros x y z H. rewrite N. replace 3%R with (sqrt (3 * 3)) by (apply sqrt_square; lra). apply sqrt_lt_1_alt. nra. }
  cbv zeta. split; [|split; [|split]].
  - split.
    + intros s [<-|[]]. cbn [pp]. rewrite N3. lra.
    + intros p s [<-|[<-|[]]] [<-|[]]; cbn [pp]; rewrite N3; apply LT; lra.
  - split.
    + intros s [<-|[]]. cbn [pp]. rewrite N3. lra.
    + intros p s [<-|[<-|[]]] [<-|[]]; cbn [pp moved vadd v0]; rewrite N3; apply LT; lra.
  - intros (l1 & p & l2 & q & l3 & E & Hp & Hq). destruct l1 as [|a l1].
    + injection E as <- E. injection Hp. lra.
    + destruct l1 as [|b l1].
      * injection E as _ <- E. now destruct l2.
      * injection E as _ _ E. now destruct l1.
  - unfold newton_work, lsr. cbn [fold_right pm pp]. unfold vsub, v0. rewrite !N.
    replace ((0 - 1) * (0 - 1) + (3 - 0) * (3 - 0) + (0 - 0) * (0 - 0))%R with 10%R by ring.
    replace ((0 - 0) * (0 - 0) + (3 - 0) * (3 - 0) + (0 - 0) * (0 - 0))%R with (3 * 3)%R by ring. rewrite sqrt_square by lra.
    assert (0 < / sqrt 10)%R by (apply Rinv_0_lt_compat, sqrt_lt_R0; lra). unfold Rdiv. nra.
Qed.
