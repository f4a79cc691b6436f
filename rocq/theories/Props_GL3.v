(* C41: the rules that newt/gShapeGL.py asks numpy's leggauss for exist for every number of points, and there is only one *)
From Coq Require Import Reals Lra Lia List Sorting Arith.
From Coquelicot Require Import Coquelicot.
From Verif Require Import Res Legendre Glib GLSpec GlibSpec MomentSpec PointSpec GShapeGL Gauss Props_GL.
Open Scope R_scope.

Theorem C41_rule_exists n : exists r, gauss_rule n r.
Proof. destruct (gauss_exists n) as (r & G & _). now exists r. Qed.
Theorem C41_rule_unique n r r' : gauss_rule n r -> gauss_rule n r' -> r = r'.
Proof. apply gauss_unique. Qed.
(* the hypothesis of the other theorems of C41 can be met for any numbers of points *)
Theorem C41_rules_exist ns : exists gl, rules_at gl ns.
Proof.
  induction ns as [|n ns (gl & H)]; [exists (fun _ => nil); intros n []|].
  destruct (C41_rule_exists n) as (r & G). exists (fun k => if Nat.eq_dec k n then r else gl k).
  intros k Hk. destruct (Nat.eq_dec k n) as [->|N]; [easy|]. apply H. destruct Hk; [congruence|easy].
Qed.
(* ... and any two suppliers of right rules lead to the same point masses *)
Theorem C41_same_rectangle gl gl' mass x y z dx dy dz : rules_at gl (dx :: dy :: dz :: nil) -> rules_at gl' (dx :: dy :: dz :: nil) ->
  gl_rectangle gl mass x y z dx dy dz = gl_rectangle gl' mass x y z dx dy dz.
Proof.
  intros H H'. assert (E : forall n, In n (dx :: dy :: dz :: nil) -> gl n = gl' n) by (intros n Hn; apply (C41_rule_unique n); [now apply H|now apply H']).
  unfold gl_rectangle, leggauss. rewrite (E dx), (E dy), (E dz); [reflexivity| | |]; cbn; tauto.
Qed.
Theorem C41_same_round gl gl' dd : rules_at gl (dd :: nil) -> rules_at gl' (dd :: nil) ->
  (forall mass r, gl_sphere gl mass r dd = gl_sphere gl' mass r dd) /\
  (forall mass iR oR t dz, gl_annulus gl mass iR oR t dd dz = gl_annulus gl' mass iR oR t dd dz) /\
  (forall mass Rad H dz, gl_cone gl mass Rad H dd dz = gl_cone gl' mass Rad H dd dz) /\
  (forall mass iR oR t theta dz, gl_wedge gl mass iR oR t theta dd dz = gl_wedge gl' mass iR oR t theta dd dz).
Proof.
  intros H H'. assert (E : gl dd = gl' dd) by (apply (C41_rule_unique dd); [apply H|apply H']; now left).
  unfold gl_sphere, gl_annulus, gl_cone, gl_wedge, leggauss. rewrite E. repeat split; reflexivity.
Qed.
Theorem C41_same_tri_prism gl gl' mass d y1 y2 t dx dy dz : rules_at gl (dx :: dy :: dz :: nil) -> rules_at gl' (dx :: dy :: dz :: nil) ->
  gl_tri_prism gl mass d y1 y2 t dx dy dz = gl_tri_prism gl' mass d y1 y2 t dx dy dz.
Proof.
  intros H H'. assert (E : forall n, In n (dx :: dy :: dz :: nil) -> gl n = gl' n) by (intros n Hn; apply (C41_rule_unique n); [now apply H|now apply H']).
  unfold gl_tri_prism, leggauss. rewrite (E dx), (E dy), (E dz); [reflexivity| | |]; cbn; tauto.
Qed.
(* the points are the zeros of the n-th Legendre polynomial, given by Bonnet's recurrence *)
Theorem C41_legendre (L : nat -> R -> R) n r p :
  (forall t, L 0%nat t = 1) -> (forall t, L 1%nat t = t) -> (forall k t, (INR k + 2) * L (S (S k)) t = (2 * INR k + 3) * t * L (S k) t - (INR k + 1) * L k t) ->
  gauss_rule n r -> In p r -> L n (fst p) = 0.
Proof.
  intros H0 H1 HS G Hp. destruct (gauss_exists n) as (r' & G' & Z). rewrite (C41_rule_unique n r r' G G') in Hp.
  rewrite <- (Z p Hp). set (t := fst p). clearbody t. clear - H0 H1 HS. revert n. apply nat_ind2.
  - now rewrite H0.
  - rewrite H1. unfold P. now rewrite HL_1.
  - intros k E0 E1. assert (Hk := pos_INR k). apply Rmult_eq_reg_l with (INR k + 2); [|lra]. now rewrite HS, P_rec, E0, E1.
Qed.
(* the rule is symmetric about the middle of the interval *)
Lemma quad_app r s f : quad (r ++ s) f = quad r f + quad s f.
Proof. unfold quad. induction r as [|a r IH]; cbn; [ring|]. rewrite IH. ring. Qed.
Lemma quad_mirror r f : quad (rev (map (fun p => (- fst p, snd p)) r)) f = quad r (fun x => f (- x)).
Proof. induction r as [|a r IH]; [easy|]. cbn [map rev]. rewrite quad_app, IH. unfold quad. cbn [fold_right fst snd]. ring. Qed.
Lemma SS_mirror l : StronglySorted Rlt l -> StronglySorted Rlt (rev (map Ropp l)).
Proof.
  induction 1 as [|a l H IH Hf]; cbn; [constructor|]. apply SS_snoc; [easy|]. intros x Hx. rewrite <- in_rev in Hx. apply in_map_iff in Hx.
  destruct Hx as (y & <- & Hy). rewrite List.Forall_forall in Hf. specialize (Hf y Hy). lra.
Qed.
Theorem C41_rule_symmetric n r : gauss_rule n r -> rev (map (fun p => (- fst p, snd p)) r) = r.
Proof.
  intros G. apply (C41_rule_unique n); [|easy]. constructor.
  - rewrite rev_length, map_length. apply (gr_len n r G).
  - intros p Hp. rewrite <- in_rev in Hp. apply in_map_iff in Hp. destruct Hp as (q & <- & Hq). destruct (gr_in n r G q Hq). cbn. split; [lra|easy].
  - rewrite map_rev, map_map. cbn. rewrite <- (map_map fst Ropp). apply SS_mirror. apply (gr_sorted n r G).
  - intros k Hk. rewrite quad_mirror.
    assert (I : is_RInt (fun x => (- x) ^ k) (-1) 1 (quad r (fun x => (- x) ^ k))).
    { apply (gauss_pol n r); [easy|]. apply pol_le with (S k); [lia|].
      apply pol_ext with (fun x => (-1) ^ k * x ^ k); [apply pol_scal, pol_pow|]. intros x. rewrite <- Rpow_mult_distr. f_equal. ring. }
    set (v := quad r (fun x => (- x) ^ k)) in *. clearbody v.
    assert (J : is_RInt (fun y => opp ((- - y) ^ k)) 1 (-1) v).
    { apply (is_RInt_comp_opp (V := R_NormedModule) (fun x => (- x) ^ k) 1 (-1) v). replace (- -1) with 1 by ring. exact I. }
    apply (is_RInt_swap (V := R_NormedModule)) in J. apply (is_RInt_opp (V := R_NormedModule)) in J. rewrite opp_opp in J.
    eapply is_RInt_ext; [|exact J]. intros x _. cbv beta. rewrite opp_opp. f_equal. ring.
Qed.
(* the exactness reaches every polynomial of degree below 2n, not only the powers *)
Theorem C41_exact n r (cs : list R) : gauss_rule n r -> (length cs <= 2 * n)%nat ->
  let f := fun x => fold_right (fun c acc => c + x * acc) 0 cs in is_RInt f (-1) 1 (quad r f).
Proof.
  intros G H f. apply (gauss_pol n r f G). apply pol_le with (length cs); [easy|]. exists cs. split; [easy|].
  intros x. unfold f. clear. induction cs as [|c cs IH]; cbn; [easy|]. now rewrite IH.
Qed.
(* a rectangle of any fineness has its point masses *)
Example C41_fine_case : exists gl pts, rules_at gl (7 :: 11 :: 64 :: nil)%nat /\ gl_rectangle gl 5 2 3 4 7 11 64 = Ok pts /\ total_mass pts = 5.
Proof.
  destruct (C41_rules_exist (7 :: 11 :: 64 :: nil)%nat) as (gl & H).
  destruct (C41_rectangle_mass gl 5 2 3 4 7 11 64 H) as (pts & E & _ & M); try lia. now exists gl, pts.
Qed.
Print Assumptions C41_rule_exists. Print Assumptions C41_rule_unique. Print Assumptions C41_rules_exist. Print Assumptions C41_same_rectangle.
Print Assumptions C41_same_round. Print Assumptions C41_same_tri_prism. Print Assumptions C41_legendre. Print Assumptions C41_rule_symmetric. Print Assumptions C41_exact.
