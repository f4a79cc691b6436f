(* C73: what truncation at degree L costs when each body is described about its own centre and the second is carried
   over with translate_q2Q: explicit bounds for the energy, the force, the torque and the example scripts. *)
From Coq Require Import Reals Lra Lia ZArith List.
From Coquelicot Require Import Coquelicot.
From Verif Require Import Props_Glib Props_Moments Props_Multipole Props_Torque Addition Legendre TransRecProofs RotationsProofs2 RotSpec Rotations TransSpec GlibProofs GlibProofs2 NewtonSpec Newton CDeriv MultipoleLib MultipoleProofs MultipoleProofs2.
From Verif Require Import Tri Solid Translations TranslationsProofs Pg2Multi Pg2MultiProofs Props_Translations Props_Rotations Props_Newton Rotor Irreg Irreg2 Props_Series Props_Series2 Props_Rate Irreg3 Irreg4.
From Verif Require Import SeriesSpec.
From Verif Require Import Cplx.
Import ListNotations.
Open Scope C_scope.

(* ---- specification: p about the first centre, s about the second, the centres |t| apart ---- *)
Definition energy_tail (L : nat) (r R0 : R) : R := ((r / R0) ^ (L + 1) / (R0 - r))%R.
Definition centre_energy_error (c : R) (L : nat) (P S : list pt) (t : vec) : R :=
  lsr (fun p => lsr (fun s => Rabs (c * pm p * pm s) * energy_tail L (vnorm (pp p) + vnorm (pp s)) (vnorm t))%R S) P.
Definition centre_force_error (L : nat) (P S : list pt) (t : vec) : R :=
  lsr (fun p => lsr (fun s => Rabs (BIG_G * pm p * pm s) * force_tail L (vnorm (pp p) + vnorm (pp s)) (vnorm t))%R S) P.
Definition centre_torque_error (L : nat) (P S : list pt) (t : vec) : R :=
  lsr (fun p => lsr (fun s => Rabs (BIG_G * pm p * pm s) * (vnorm (pp p) * force_tail L (vnorm (pp p) + vnorm (pp s)) (vnorm t)))%R S) P.

Theorem C73_energy : forall P S t c q qs, separate P S t -> (0 <= deg q)%Z -> deg qs = deg q -> holds q (inner_moment P) -> holds qs (inner_moment S) ->
  exists Q, translate_q2Q qs t = Ok Q /\ deg Q = deg q /\
  (Cmod (work c (deg q) (mom q) (mom Q) - RtoC (newton_work c P (map (moved t) S)))%C <= centre_energy_error c (Z.to_nat (deg q)) P S t)%R.
Proof.
  intros P S t c q qs [Ht H] HL Dq Hq Hqs. destruct (translate_q2Q_holds qs t ltac:(lia) ltac:(lra)) as (Q & E & DQ & _). exists Q. split; [exact E|]. split; [congruence|].
  replace (work c (deg q) (mom q) (mom Q)) with (work c (deg qs) (inner_moment P) (mom Q)).
  2:{ rewrite Dq. unfold work. f_equal. apply pairing_ext; [|reflexivity]. intros l m Hl Hm. symmetry. apply Hq; lia. }
  rewrite (work_en c qs P S t Q) by (assumption || lia || lra). unfold newton_work.
  rewrite (lsr_ext _ (fun p => lsr (fun s => (c * pm p * pm s) * / vnorm (vsub (vadd (pp s) t) (pp p)))%R S)) by (intros p _; rewrite lsr_map; reflexivity).
  rewrite <- Dq. unfold centre_energy_error.
  apply (pairs_err P S (fun p s => c * pm p * pm s)%R (fun p s => en (deg qs) (pp p) (pp s) t) (fun p s => / vnorm (vsub (vadd (pp s) t) (pp p)))%R (fun p s => energy_tail (Z.to_nat (deg qs)) (vnorm (pp p) + vnorm (pp s)) (vnorm t))).
  intros p s Hp Hs. unfold energy_tail. rewrite Nat.add_1_r. apply en_rate; [lia|now apply H].
Qed.
(* power of the attraction along velocities w of the points g p *)
Lemma power_rate P S t (g w : vec -> vec) N : (1 <= N)%Z -> (forall p s, In p P -> In s S -> (vnorm (g (pp p)) + vnorm (pp s) < vnorm t)%R) ->
  (Cmod (lsum (fun p => lsum (fun s => RtoC (BIG_G * pm p * pm s) * den N (w (pp p)) (g (pp p)) (pp s) t) S) P
         - RtoC (lsr (fun p => vdot (w (pp p)) (vS (fun s => pf wG (mkpt (pm p) (g (pp p))) s) (map (moved t) S))) P))%C
   <= lsr (fun p => lsr (fun s => Rabs (BIG_G * pm p * pm s) * (vnorm (w (pp p)) * force_tail (Z.to_nat N) (vnorm (g (pp p)) + vnorm (pp s)) (vnorm t)))%R S) P)%R.
Proof.
  intros HN H. rewrite <- power_moved. apply (pairs_err P S (fun p s => BIG_G * pm p * pm s)%R (fun p s => den N (w (pp p)) (g (pp p)) (pp s) t)). intros p s Hp Hs. apply den_rate; [exact HN|now apply H].
Qed.
Lemma den_lin N p s t (e1 e2 e3 : R) : den N (e1, e2, e3)%R p s t = RtoC e1 * den N (1, 0, 0)%R p s t + RtoC e2 * den N (0, 1, 0)%R p s t + RtoC e3 * den N (0, 0, 1)%R p s t.
Proof. unfold den, Av, Bv, zv. field. Qed.
Lemma lsum_lin3 {A B} (f1 f2 f3 : A -> B -> C) (e1 e2 e3 : C) la lb :
  lsum (fun a => lsum (fun b => e1 * f1 a b + e2 * f2 a b + e3 * f3 a b) lb) la = e1 * lsum (fun a => lsum (f1 a) lb) la + e2 * lsum (fun a => lsum (f2 a) lb) la + e3 * lsum (fun a => lsum (f3 a) lb) la.
Proof.
  rewrite <- !lsum_scal, <- !lsum_plus. apply lsum_ext. intros a _. rewrite <- !lsum_scal, <- !lsum_plus. apply lsum_ext. intros b _. reflexivity.
Qed.
Theorem C73_force : forall P S t x y z q qs, separate (map (moved (x, y, z)%R) P) S t ->
  (1 <= deg q)%Z -> deg qs = deg q -> holds q (inner_moment P) -> holds qs (inner_moment S) ->
  exists Q fx fy fz Fx Fy Fz T, translate_q2Q qs t = Ok Q /\ multipole_force (deg q) q Q x y z BIG_G = Ok (RtoC fx, RtoC fy, RtoC fz) /\
    point_matrix_gravity (translate_point_array (Rows P) (x, y, z)%R) (translate_point_array (Rows S) t) = Ok ((Fx, Fy, Fz), T) /\
    (vnorm (fx - Fx, fy - Fy, fz - Fz) <= centre_force_error (Z.to_nat (deg q)) (map (moved (x, y, z)) P) S t)%R.
Proof.
  intros P S t x y z q qs Hsep HL Dq Hq Hqs. set (v := (x, y, z)%R : vec). set (g := fun u : vec => vadd u v).
  destruct (totF wG (carried g P) (map (moved t) S)) as [[Fx Fy] Fz] eqn:EF.
  assert (Ap := separate_apart _ S t Hsep). destruct Hsep as [Ht H].
  assert (H' : forall p s, In p P -> In s S -> (vnorm (g (pp p)) + vnorm (pp s) < vnorm t)%R). { intros p s Hp Hs. apply (H (moved v p) s); [now apply in_map|exact Hs]. }
  destruct (translate_q2Q_holds qs t ltac:(lia) ltac:(lra)) as (Q & E & DQ & _).
  assert (RQ : reality Q) by (eapply q2Q_symm; [|eapply reality_inner; exact Hqs|exact E]; lia).
  destruct (C30_force_on_a_body q Q P x y z BIG_G ltac:(lia) ltac:(congruence) Hq ltac:(lia)) as (fx & fy & fz & Ef & G1 & G2 & G3).
  destruct (C30_force_is_real q Q x y z BIG_G fx fy fz ltac:(lia) ltac:(congruence) (reality_inner q P Hq) (proj2 Hq) RQ Ef) as (I1 & I2 & I3).
  assert (X1 : fx = RtoC (Re fx)) by (apply C_eq; cbn; [reflexivity|exact I1]). assert (X2 : fy = RtoC (Re fy)) by (apply C_eq; cbn; [reflexivity|exact I2]). assert (X3 : fz = RtoC (Re fz)) by (apply C_eq; cbn; [reflexivity|exact I3]).
  assert (K : forall (gt : R -> vec -> vec) (x0 : R) e d, (forall u, gt x0 u = g u) -> (forall t u, gt t u = on_line (gt 0%R u) e t) ->
    cder (fun u => work BIG_G (deg q) (inner_moment (carried (gt u) P)) (mom Q)) x0 d -> d = lsum (fun p => lsum (fun s => RtoC (BIG_G * pm p * pm s) * den (deg q) e (g (pp p)) (pp s) t) S) P).
  { intros gt x0 e d Eg Hl D. rewrite <- Dq in *. rewrite (rate_of BIG_G qs P S t Q gt x0 (fun _ => e) d ltac:(lia) ltac:(lra) Hqs E); [| |exact D].
    - apply lsum_ext. intros p _. now rewrite Eg.
    - intros p _. apply (goes_line _ x0 (gt 0%R (pp p))). intros u. apply Hl. }
  apply (K (fun u w => vadd w (u, y, z)%R) x (1, 0, 0)%R fx) in G1; [|reflexivity|intros u [[a b] c]; unfold vadd, on_line; apply v3; ring].
  apply (K (fun u w => vadd w (x, u, z)%R) y (0, 1, 0)%R fy) in G2; [|reflexivity|intros u [[a b] c]; unfold vadd, on_line; apply v3; ring].
  apply (K (fun u w => vadd w (x, y, u)%R) z (0, 0, 1)%R fz) in G3; [|reflexivity|intros u [[a b] c]; unfold vadd, on_line; apply v3; ring]. clear K.
  exists Q, (Re fx), (Re fy), (Re fz), Fx, Fy, Fz, (totT wG (carried g P) (map (moved t) S)). split; [exact E|]. split; [rewrite <- X1, <- X2, <- X3; exact Ef|]. split.
  { rewrite <- EF, !translate_moved, gravity_spec. cbn [rows]. change (carried g P) with (map (moved v) P). unfold v. now rewrite Ap. }
  set (a := (_, _, _)).
  assert (B : forall e, (Rabs (vdot e a) <= vnorm e * centre_force_error (Z.to_nat (deg q)) (map (moved v) P) S t)%R).
  { intros e. assert (B := power_rate P S t g (fun _ => e) (deg q) HL H'). cbv beta in B.
    rewrite <- vdot_vS, <- totF_at, EF in B. destruct e as [[e1 e2] e3].
    rewrite (lsum_ext _ (fun p => lsum (fun s => RtoC e1 * (RtoC (BIG_G * pm p * pm s) * den (deg q) (1, 0, 0)%R (g (pp p)) (pp s) t) + RtoC e2 * (RtoC (BIG_G * pm p * pm s) * den (deg q) (0, 1, 0)%R (g (pp p)) (pp s) t)
        + RtoC e3 * (RtoC (BIG_G * pm p * pm s) * den (deg q) (0, 0, 1)%R (g (pp p)) (pp s) t)) S)) in B.
    2:{ intros p _. apply lsum_ext. intros s _. rewrite den_lin. ring. }
    rewrite lsum_lin3, <- G1, <- G2, <- G3, X1, X2, X3 in B. rewrite <- !RtoC_mult, <- !RtoC_plus, <- RtoC_minus, Cmod_R in B.
    unfold a. match type of B with (Rabs ?u <= _)%R => match goal with |- (Rabs ?w <= _)%R => replace w with u by (unfold vdot; ring) end end.
    eapply Rle_trans; [exact B|]. apply Req_le. unfold centre_force_error. rewrite lsr_map, <- lsr_scal. apply lsr_ext. intros p _. rewrite <- lsr_scal. apply lsr_ext. intros s _. cbn [moved pm pp]. fold (g (pp p)). ring. }
  apply vnorm_le_dirs; [|apply B]. apply lsr_nonneg. intros p Hp. apply lsr_nonneg. intros s Hs.
  apply Rmult_le_pos; [apply Rabs_pos|]. apply force_tail_nonneg. split; [apply Rplus_le_le_0_compat; apply vnorm_ge0|]. now apply H.
Qed.
Theorem C73_torque : forall P S t phi q qs, separate P S t ->
  (1 <= deg q)%Z -> deg qs = deg q -> holds q (inner_moment P) -> holds qs (inner_moment S) ->
  exists Q nlm nc ns n P' F T, translate_q2Q qs t = Ok Q /\ torque_lm q Q BIG_G = Ok (nlm, nc, ns) /\ torques_at_angle nc ns phi false = Ok n /\
    rotate_point_array (Rows P) phi (0, 0, 1)%R = Ok P' /\ point_matrix_gravity P' (translate_point_array (Rows S) t) = Ok (F, T) /\
    (Rabs (n - zcomp T) <= centre_torque_error (Z.to_nat (deg q)) P S t)%R.
Proof.
  intros P S t phi q qs Hsep HL Dq Hq Hqs. assert (Hs' := separate_turned phi P S t Hsep). assert (Ap := separate_apart _ S t Hs').
  destruct Hsep as [Ht H]. set (w := fun v : vec => let '(a, b, _) := v in (- sin phi * a - cos phi * b, cos phi * a - sin phi * b, 0)%R : vec).
  destruct (translate_q2Q_holds qs t ltac:(lia) ltac:(lra)) as (Q & E & DQ & _).
  destruct (torque_lm_ok q Q BIG_G ltac:(lia) ltac:(lia)) as (nlm & nc & ns & En & _).
  assert (RQ : reality Q) by (eapply q2Q_symm; [|eapply reality_inner; exact Hqs|exact E]; lia).
  destruct (torque_turning q Q P BIG_G nlm nc ns phi ltac:(lia) ltac:(lia) Hq RQ En) as (n & Et & G).
  exists Q, nlm, nc, ns, n, (Rows (turned phi P)), (totF wG (turned phi P) (map (moved t) S)), (totT wG (turned phi P) (map (moved t) S)).
  split; [exact E|]. split; [exact En|]. split; [exact Et|]. split; [apply rotate_turned|]. split.
  { rewrite translate_moved, gravity_spec. cbn [rows]. now rewrite Ap. }
  rewrite <- Dq in G. apply (rate_of BIG_G qs P S t Q zrot phi w (RtoC n) ltac:(lia) ltac:(lra) Hqs E) in G; [|intros p _; apply goes_turn].
  assert (B := power_rate P S t (zrot phi) w (deg qs) ltac:(lia)). specialize (B ltac:(intros p s Hp Hs; rewrite vnorm_zrot; now apply H)). rewrite <- G in B.
  assert (TP := turn_power phi P (map (moved t) S)). fold w in TP.
  match type of B with (Cmod (_ - RtoC ?u)%C <= _)%R => replace u with (zcomp (totT wG (turned phi P) (map (moved t) S))) in B by (symmetry; exact TP) end. rewrite <- RtoC_minus, Cmod_R in B.
  eapply Rle_trans; [exact B|]. rewrite Dq. unfold centre_torque_error. apply lsr_mono. intros p Hp. apply lsr_mono. intros s Hs.
  rewrite vnorm_zrot. apply Rmult_le_compat_l; [apply Rabs_pos|]. apply Rmult_le_compat_r; [|apply turn_speed].
  apply force_tail_nonneg. split; [apply Rplus_le_le_0_compat; apply vnorm_ge0|]. now apply H.
Qed.
(* the example scripts: rotate_qlm of the rotor by x, force of the mirror carried over with translate_q2Q *)
Theorem C73_script : forall P S t x q qs, separate P S t ->
  (1 <= deg q)%Z -> deg qs = deg q -> holds q (inner_moment P) -> holds qs (inner_moment S) ->
  exists Q fx fy fz P' Fx Fy Fz T, translate_q2Q qs t = Ok Q /\ script_force (deg q) q Q x BIG_G = Ok (RtoC fx, RtoC fy, RtoC fz) /\
    rotate_point_array (Rows P) x (0, 0, 1)%R = Ok P' /\ point_matrix_gravity P' (translate_point_array (Rows S) t) = Ok ((Fx, Fy, Fz), T) /\
    (vnorm (fx - Fx, fy - Fy, fz - Fz) <= centre_force_error (Z.to_nat (deg q)) P S t)%R.
Proof.
  intros P S t x q qs Hsep HL Dq Hq Hqs. assert (Hs' := separate_turned x P S t Hsep). assert (Hs0 := Hs'). rewrite <- (moved_0 (turned x P)) in Hs0.
  destruct (C23_rotated_moments q P x 0 0 ltac:(lia) Hq) as (q' & Eq & Dq' & Hq'). change (holds q' (inner_moment (map (fun p => mkpt (pm p) (euler x 0 0 (pp p))) P))) in Hq'. rewrite turned_euler in Hq'.
  destruct (C73_force (turned x P) S t 0 0 0 q' qs Hs0 ltac:(lia) ltac:(lia) Hq' Hqs) as (Q & fx & fy & fz & Fx & Fy & Fz & T & E1 & E2 & E3 & E4).
  exists Q, fx, fy, fz, (Rows (turned x P)), Fx, Fy, Fz, T. split; [exact E1|]. split; [|split; [apply rotate_turned|split]].
  - unfold script_force. rewrite Eq. cbn [bind]. rewrite <- Dq'. exact E2.
  - rewrite (translate_moved (turned x P)), moved_0 in E3. exact E3.
  - rewrite moved_0, Dq' in E4. eapply Rle_trans; [exact E4|]. apply Req_le. unfold centre_force_error, turned. rewrite lsr_map. apply lsr_ext. intros p _. apply lsr_ext. intros s _. cbn [pm pp]. now rewrite vnorm_zrot.
Qed.
(* bodies in balls of radii a, b: one number for all *)
Theorem C73_in_balls : forall P S t (a b : R) (L : nat), (0 <= a)%R -> (0 <= b)%R -> (a + b < vnorm t)%R ->
  (forall p, In p P -> (vnorm (pp p) <= a)%R) -> (forall s, In s S -> (vnorm (pp s) <= b)%R) ->
  separate P S t /\
  (forall c, centre_energy_error c L P S t <= Rabs c * sum_abs_mass P * sum_abs_mass S * (((a + b) / vnorm t) ^ (L + 1) / (vnorm t - (a + b))))%R /\
  (centre_force_error L P S t <= BIG_G * sum_abs_mass P * sum_abs_mass S * (((a + b) / vnorm t) ^ L * (INR L + 1 - INR L * ((a + b) / vnorm t)) / (vnorm t - (a + b)) ^ 2))%R /\
  (centre_torque_error L P S t <= BIG_G * sum_abs_mass P * sum_abs_mass S * (a * (((a + b) / vnorm t) ^ L * (INR L + 1 - INR L * ((a + b) / vnorm t)) / (vnorm t - (a + b)) ^ 2)))%R.
Proof.
  intros P S t a b L Ha Hb Hab HP HS. assert (HG : (0 <= BIG_G)%R) by (unfold BIG_G; lra).
  assert (G : forall c X (f : pt -> pt -> R), (0 <= X)%R -> (forall p s, In p P -> In s S -> (f p s <= X)%R) ->
    (lsr (fun p => lsr (fun s => Rabs (c * pm p * pm s) * f p s) S) P <= Rabs c * sum_abs_mass P * sum_abs_mass S * X)%R).
  { intros c X f HX Hf. unfold sum_abs_mass.
    replace (Rabs c * lsr (fun p => Rabs (pm p)) P * lsr (fun p => Rabs (pm p)) S * X)%R
      with (lsr (fun p => lsr (fun s => Rabs (c * pm p * pm s) * X) S) P)%R.
    - apply lsr_mono. intros p Hp. apply lsr_mono. intros s Hs. apply Rmult_le_compat_l; [apply Rabs_pos|]. now apply Hf.
    - transitivity (Rabs c * (lsr (fun p => Rabs (pm p)) S * X) * lsr (fun p => Rabs (pm p)) P)%R; [|ring]. rewrite <- lsr_scal. apply lsr_ext. intros p _.
      transitivity (Rabs c * X * Rabs (pm p) * lsr (fun p => Rabs (pm p)) S)%R; [|ring]. rewrite <- lsr_scal. apply lsr_ext. intros s _.
      rewrite !Rabs_mult. ring. }
  assert (HT := force_tail_nonneg L (a + b) (vnorm t) ltac:(lra)). fold (force_tail L (a + b) (vnorm t)).
  assert (M : forall p s, In p P -> In s S -> (0 <= vnorm (pp p) + vnorm (pp s) <= a + b)%R).
  { intros p s Hp Hs. specialize (HP p Hp). specialize (HS s Hs). assert (K1 := vnorm_ge0 (pp p)). assert (K2 := vnorm_ge0 (pp s)). lra. }
  split; [|split; [|split]].
  - split; [lra|]. intros p s Hp Hs. specialize (M p s Hp Hs). lra.
  - intros c. apply G.
    + apply Rdiv_le_0_compat; [apply pow_le; apply Rdiv_le_0_compat; lra|lra].
    + intros p s Hp Hs. specialize (M p s Hp Hs). unfold energy_tail. set (r := (vnorm (pp p) + vnorm (pp s))%R) in *.
      apply Rmult_le_compat; [apply pow_le, Rdiv_le_0_compat; lra|apply Rlt_le, Rinv_0_lt_compat; lra| |apply Rinv_le_contravar; lra].
      apply pow_incr. split; [apply Rdiv_le_0_compat; lra|]. apply Rmult_le_compat_r; [apply Rlt_le, Rinv_0_lt_compat; lra|lra].
  - rewrite <- (Rabs_pos_eq BIG_G HG) at 1. apply G; [exact HT|]. intros p s Hp Hs. apply force_tail_mono; [now apply M|lra|lra].
  - rewrite <- (Rabs_pos_eq BIG_G HG) at 1. apply G; [now apply Rmult_le_pos|]. intros p s Hp Hs. specialize (M p s Hp Hs). apply Rmult_le_compat; [apply vnorm_ge0| |now apply HP|].
    + apply force_tail_nonneg. lra.
    + apply force_tail_mono; [exact M|lra|lra].
Qed.
(* two dumb-bells five units apart, moments to degree 10: the force error is at most G * 18 * (11 - 4) * 0.4^10 / 9 *)
Example C73_case : let P := [mkpt 1 (1, 0, 0)%R; mkpt 2 (-1, 0, 0)%R] in let S := [mkpt 3 (0, 1, 0)%R; mkpt 3 (0, -1, 0)%R] in
  separate P S (5, 0, 0)%R /\ (centre_force_error 10 P S (5, 0, 0)%R <= BIG_G * / 500)%R.
Proof.
  intros P S.
  assert (T : vnorm (5, 0, 0)%R = 5%R). { rewrite vnorm_xyz. replace (5 ^ 2 + 0 ^ 2 + 0 ^ 2)%R with (5 ^ 2)%R by ring. apply sqrt_pow2. lra. }
  assert (B : forall x y z r, (0 <= r)%R -> (x ^ 2 + y ^ 2 + z ^ 2 <= r ^ 2)%R -> (vnorm (x, y, z)%R <= r)%R).
  { intros x y z r Hr Hx. rewrite vnorm_xyz. rewrite <- (sqrt_pow2 r Hr). now apply sqrt_le_1_alt. }
  destruct (C73_in_balls P S (5, 0, 0)%R 1 1 10 ltac:(lra) ltac:(lra) ltac:(lra)) as (H1 & _ & H2 & _).
  - intros p [<-|[<-|[]]]; apply B; lra.
  - intros p [<-|[<-|[]]]; apply B; lra.
  - split; [exact H1|]. eapply Rle_trans; [exact H2|]. rewrite T. unfold sum_abs_mass, P, S, lsr. cbn [fold_right pm]. rewrite !Rabs_pos_eq by lra.
    replace (INR 10) with 10%R by (cbn [INR]; ring). rewrite !Rmult_assoc. apply Rmult_le_compat_l; [unfold BIG_G; lra|]. lra.
Qed.
Print Assumptions C73_energy.
Print Assumptions C73_force.
Print Assumptions C73_torque.
Print Assumptions C73_script.
Print Assumptions C73_in_balls.
