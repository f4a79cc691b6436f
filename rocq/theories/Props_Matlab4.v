(* C69, C70: the random arrays and the scan tools of /repo/matlab-src *)
From Verif Require Import MomentSpec PointSpec Qlm GlibShapes GlibShapesProofs Props_GlibShapes Sums.
From Verif Require Import Matlab Cplx.
From Coq Require Import Permutation.
Open Scope R_scope.

(* ---- specification ---- *)
(* a pair of uniform draws stretched over the square |y|, |z| <= a *)
Definition spread (a b : R) (d : R * R) : vec := (0, a * (2 * fst d - 1), b * (2 * snd d - 1)).
Definition unit_draw (d : R * R) : Prop := 0 <= fst d <= 1 /\ 0 <= snd d <= 1.
(* those of the stretched draws that fall between the two circles, in the order drawn *)
Definition hits (i o : R) (draws : list (R * R)) : list vec :=
  filter (fun v => if Rle_dec i (vnorm v) then (if Rle_dec (vnorm v) o then true else false) else false) (map (spread o o) draws).

Lemma vn_yz a t1 t2 : 0 < a -> vnorm (0, a * t1, a * t2) = a * sqrt (t1 ^ 2 + t2 ^ 2).
Proof.
  intros Ha. unfold vnorm. replace (0 ^ 2 + (a * t1) ^ 2 + (a * t2) ^ 2) with (a ^ 2 * (t1 ^ 2 + t2 ^ 2)) by ring.
  rewrite sqrt_mult_alt by apply pow2_ge_0. now rewrite sqrt_pow2 by lra.
Qed.
Lemma rlt_iff' a b : rlt a b = true <-> a < b.
Proof. unfold rlt. destruct (Rlt_dec a b); split; intros; try easy. Qed.
Lemma disk_loop_is i o draws : 0 < o -> forall n,
  option_map (map (fun t => (0, fst t * o, snd t * o))) (o_disk_loop (i / o) n draws) = (if (n <=? length (hits i o draws))%nat then Some (firstn n (hits i o draws)) else None).
Proof.
  intros Ho. induction draws as [|[a b] draws IH]; intros n.
  - destruct n; reflexivity.
  - destruct n as [|n]; [reflexivity|]. cbn [o_disk_loop]. cbv zeta. unfold hits in *. cbn [map filter]. change (spread o o (a, b)) with (0, o * (2 * a - 1), o * (2 * b - 1)). rewrite vn_yz by exact Ho.
    replace (a * 2 - 1) with (2 * a - 1) by ring. replace (b * 2 - 1) with (2 * b - 1) by ring. set (q := sqrt ((2 * a - 1) ^ 2 + (2 * b - 1) ^ 2)).
    assert (Q1 : rle (i / o) q = true <-> i <= o * q).
    { rewrite rle_iff. split; intros K; [apply (Rmult_le_compat_l o) in K; [|lra]; replace (o * (i / o)) with i in K by (field; lra); exact K|].
      apply (Rmult_le_reg_l o); [exact Ho|]. replace (o * (i / o)) with i by (field; lra). exact K. }
    assert (Q2 : rle q 1 = true <-> o * q <= o) by (rewrite rle_iff; split; intros K; nra).
    destruct (Rle_dec i (o * q)) as [h1|h1].
    + rewrite (proj2 Q1 h1). destruct (Rle_dec (o * q) o) as [h2|h2].
      * rewrite (proj2 Q2 h2). cbn [andb length firstn Nat.leb]. specialize (IH n). destruct (o_disk_loop (i / o) n draws); destruct (n <=? _)%nat; cbn [option_map map fst snd] in *; try discriminate; [|reflexivity].
        injection IH as IH. rewrite IH. refine (f_equal Some (f_equal2 cons _ eq_refl)). refine (f_equal2 pair (f_equal2 pair _ _) _); ring.
      * destruct (rle q 1); [destruct (h2 (proj1 Q2 eq_refl))|]. cbn [andb]. apply IH.
    + destruct (rle (i / o) q); [destruct (h1 (proj1 Q1 eq_refl))|]. cbn [andb]. apply IH.
Qed.
(* ---- C69: random arrays ---- *)
(* the disk is refused exactly when the radii are negative or out of order *)
Theorem C69_disk_refused : forall m i o N draws, (exists e, o_genPointMassRandomDisk m i o N draws = Err e) <-> i < 0 \/ o < 0 \/ o <= i.
Proof.
  intros m i o N draws. unfold o_genPointMassRandomDisk. destruct (rlt i 0) eqn:E1; cbn [orb].
  { apply rlt_iff' in E1. split; [tauto|eexists; reflexivity]. }
  destruct (rlt o 0) eqn:E2. { apply rlt_iff' in E2. split; [tauto|eexists; reflexivity]. }
  destruct (rle o i) eqn:E3. { apply rle_iff in E3. split; [tauto|eexists; reflexivity]. }
  split; [intros (e & K); discriminate|]. intros [K|[K|K]]; [apply rlt_iff' in K|apply rlt_iff' in K|apply rle_iff in K]; congruence.
Qed.
(* otherwise it is made of the first N of the draws that land in the annulus, and waits for more draws while there are fewer *)
Theorem C69_disk : forall m i o N draws, 0 <= i < o ->
  o_genPointMassRandomDisk m i o N draws = Ok (if (N <=? length (hits i o draws))%nat then Some (map (mkpt m) (firstn N (hits i o draws))) else None).
Proof.
  intros m i o N draws Hi. unfold o_genPointMassRandomDisk. destruct (rlt i 0) eqn:E1; [apply rlt_iff' in E1; lra|]. destruct (rlt o 0) eqn:E2; [apply rlt_iff' in E2; lra|].
  destruct (rle o i) eqn:E3; [apply rle_iff in E3; lra|]. cbn [orb]. f_equal. assert (K := disk_loop_is i o draws ltac:(lra) N).
  destruct (o_disk_loop (i / o) N draws) as [l|]; destruct (N <=? _)%nat; cbn [option_map] in *; try discriminate; [|reflexivity]. injection K as K. rewrite <- K, map_map. f_equal. apply map_ext. intros t. now rewrite Rmult_1_r.
Qed.
Lemma in_hits i o draws v : In v (hits i o draws) <-> i <= vnorm v <= o /\ exists d, In d draws /\ v = spread o o d.
Proof.
  unfold hits. rewrite filter_In, in_map_iff. split.
  - intros ((d & <- & Hd) & K). split; [|exists d; now split]. destruct (Rle_dec i _); [|discriminate]. destruct (Rle_dec _ o); [|discriminate]. lra.
  - intros (K & d & Hd & ->). split; [exists d; now split|]. destruct (Rle_dec i _); [|lra]. destruct (Rle_dec _ o); [reflexivity|lra].
Qed.
Lemma in_firstn {A} n (l : list A) x : In x (firstn n l) -> In x l.
Proof. revert n. induction l as [|a l IH]; intros [|n]; cbn; try tauto. intros [->|K]; [now left|right; now apply (IH n)]. Qed.
Theorem C69_disk_points : forall m i o N draws pts, o_genPointMassRandomDisk m i o N draws = Ok (Some pts) ->
  length pts = N /\ total_mass pts = INR N * m /\
  (forall p, In p pts -> pm p = m /\ fst (fst (pp p)) = 0 /\ i <= vnorm (pp p) <= o) /\
  (forall more, o_genPointMassRandomDisk m i o N (draws ++ more) = Ok (Some pts)).
Proof.
  intros m i o N draws pts E. assert (Hi : 0 <= i < o).
  { destruct (Rlt_dec i 0) as [K|K]; [|destruct (Rlt_dec o 0) as [K2|K2]; [|destruct (Rle_dec o i) as [K3|K3]; [|lra]]];
    exfalso; destruct (proj2 (C69_disk_refused m i o N draws) ltac:(tauto)) as (e & W); rewrite W in E; discriminate. }
  rewrite C69_disk in E by exact Hi. destruct (N <=? length (hits i o draws))%nat eqn:L; [|discriminate]. injection E as <-. apply Nat.leb_le in L.
  split; [now rewrite map_length, firstn_length_le|]. split.
  { assert (G : forall l : list vec, total_mass (map (mkpt m) l) = INR (length l) * m).
    { induction l as [|a l IH]; [cbn; ring|]. cbn [length]. rewrite S_INR. cbn [map total_mass fold_right pm]. unfold total_mass in IH. rewrite IH. ring. }
    rewrite G, firstn_length_le by exact L. reflexivity. }
  split.
  { intros p Hp. apply in_map_iff in Hp. destruct Hp as (v & <- & Hv). apply in_firstn, in_hits in Hv. destruct Hv as (K & d & _ & ->). cbn [pm pp]. split; [reflexivity|]. split; [reflexivity|exact K]. }
  intros more. rewrite C69_disk by exact Hi. assert (A : hits i o (draws ++ more) = hits i o draws ++ hits i o more) by (unfold hits; now rewrite map_app, filter_app). rewrite A, app_length.
  destruct (N <=? length (hits i o draws) + length (hits i o more))%nat eqn:L2; [|apply Nat.leb_gt in L2; lia]. rewrite firstn_app. replace (N - length (hits i o draws))%nat with 0%nat by lia. cbn [firstn]. now rewrite app_nil_r.
Qed.
(* the rectangle: one point per pair of draws, within the rectangle *)
Theorem C69_rectangle : forall m y z draws,
  ((exists e, o_genPointMassRandomRectangle m y z draws = Err e) <-> y < 0 \/ z < 0) /\
  (forall pts, o_genPointMassRandomRectangle m y z draws = Ok pts -> pts = map (fun d => mkpt m (spread (y / 2) (z / 2) d)) draws /\
     (List.Forall unit_draw draws -> forall p, In p pts -> pm p = m /\ fst (fst (pp p)) = 0 /\ Rabs (snd (fst (pp p))) <= y / 2 /\ Rabs (snd (pp p)) <= z / 2)).
Proof.
  intros m y z draws. unfold o_genPointMassRandomRectangle. destruct (rlt z 0) eqn:E1; cbn [orb].
  { apply rlt_iff' in E1. split; [split; [tauto|eexists; reflexivity]|discriminate]. }
  destruct (rlt y 0) eqn:E2. { apply rlt_iff' in E2. split; [split; [tauto|eexists; reflexivity]|discriminate]. }
  assert (Hz : 0 <= z) by (destruct (Rlt_dec z 0) as [K|K]; [apply rlt_iff' in K; congruence|lra]). assert (Hy : 0 <= y) by (destruct (Rlt_dec y 0) as [K|K]; [apply rlt_iff' in K; congruence|lra]).
  split; [split; [intros (e & K); discriminate|lra]|]. intros pts E. injection E as <-. split.
  - apply map_ext. intros d. unfold spread. rewrite Rmult_1_r. f_equal. refine (f_equal2 pair (f_equal2 pair _ _) _); field.
  - intros U p Hp. apply in_map_iff in Hp. destruct Hp as (d & <- & Hd). rewrite List.Forall_forall in U. destruct (U d Hd) as (U1 & U2). cbn [pm pp fst snd]. split; [ring|]. split; [reflexivity|].
    split; apply Rabs_le; nra.
Qed.
(* the shell: points of equal mass on the sphere; the cap of height fraction s is met exactly by the disc of area fraction s, which is what makes the draw uniform *)
Definition on_disc (d : R * R) : R := (2 * fst d - 1) ^ 2 + (2 * snd d - 1) ^ 2.
Theorem C69_shell : forall M Rad draws pts, o_genPointMassSphericalRandomShell M Rad draws = pts ->
  length pts = length (filter (fun d => if Rlt_dec (on_disc d) 1 then true else false) draws) /\
  (pts <> [] -> total_mass pts = M) /\
  (forall p, In p pts -> pm p = M / INR (length pts) /\ vnorm (pp p) = Rabs Rad /\
     exists d, In d draws /\ on_disc d < 1 /\ snd (pp p) = Rad * (1 - 2 * on_disc d)) /\
  (forall d, In d draws -> on_disc d < 1 -> exists p, In p pts /\ snd (pp p) = Rad * (1 - 2 * on_disc d) /\ (0 < Rad -> forall s, snd (pp p) >= Rad * (1 - 2 * s) <-> on_disc d <= s)).
Proof.
  intros M Rad draws pts <-. unfold o_genPointMassSphericalRandomShell. cbv zeta. set (x := map _ draws). set (keep := filter _ x). rewrite map_length.
  assert (L : length keep = length (filter (fun d => if Rlt_dec (on_disc d) 1 then true else false) draws)).
  { unfold keep, x. clear. induction draws as [|d draws IH]; [reflexivity|]. cbn [map filter]. change (rlt (fst (2 * fst d - 1, 2 * snd d - 1) ^ 2 + snd (2 * fst d - 1, 2 * snd d - 1) ^ 2) 1) with (if Rlt_dec (on_disc d) 1 then true else false).
    destruct (Rlt_dec (on_disc d) 1); cbn [length]; [now rewrite IH|exact IH]. }
  assert (KI : forall p, In p keep -> exists d, In d draws /\ on_disc d < 1 /\ p = (2 * fst d - 1, 2 * snd d - 1)).
  { intros p Hp. apply filter_In in Hp. destruct Hp as (Hp & K). apply in_map_iff in Hp. destruct Hp as (d & <- & Hd). exists d. split; [exact Hd|]. split; [|reflexivity]. apply rlt_iff' in K. exact K. }
  assert (KJ : forall d, In d draws -> on_disc d < 1 -> In (2 * fst d - 1, 2 * snd d - 1) keep).
  { intros d Hd K. apply filter_In. split; [apply in_map_iff; exists d; now split|]. apply rlt_iff'. exact K. }
  split; [exact L|]. rewrite (sumR_const 1 keep), Rmult_1_r. clearbody keep. split.
  { intros NE. destruct keep as [|k0 keep']; [destruct NE; reflexivity|]. set (k := k0 :: keep') in *. assert (HN : INR (length k) <> 0) by (apply not_0_INR; discriminate).
    set (w := 1 * M / INR (length k)). assert (G : forall l : list (R * R), total_mass (map (fun p => mkpt w (2 * fst p * sqrt (1 - (fst p ^ 2 + snd p ^ 2)) * Rad, 2 * snd p * sqrt (1 - (fst p ^ 2 + snd p ^ 2)) * Rad, (1 - 2 * (fst p ^ 2 + snd p ^ 2)) * Rad)) l) = INR (length l) * w).
    { induction l as [|a l IH]; [cbn; ring|]. cbn [length]. rewrite S_INR. cbn [map total_mass fold_right pm]. unfold total_mass in IH. rewrite IH. ring. }
    rewrite G. unfold w. field. exact HN. }
  split.
  - intros p Hp. apply in_map_iff in Hp. destruct Hp as (q & <- & Hq). destruct (KI q Hq) as (d & Hd & K & ->). cbn [fst snd pm pp]. fold (on_disc d). split; [unfold Rdiv; ring|]. split.
    + unfold vnorm. rewrite <- sqrt_Rsqr_abs. f_equal. unfold Rsqr. set (s := sqrt (1 - on_disc d)). assert (S2 : s * s = 1 - on_disc d) by (apply sqrt_sqrt; lra).
      transitivity (Rad * Rad * (4 * on_disc d * (s * s) + (1 - 2 * on_disc d) * (1 - 2 * on_disc d))); [unfold on_disc; ring|rewrite S2; ring].
    + exists d. split; [exact Hd|]. split; [exact K|ring].
  - intros d Hd K. eexists. split; [apply in_map_iff; eexists; split; [reflexivity|apply (KJ d Hd K)]|]. cbn [fst snd pm pp]. fold (on_disc d). split; [ring|]. intros HR s. split; intros W; [|nra].
    apply Rge_le in W. rewrite (Rmult_comm (1 - _)) in W. apply Rmult_le_reg_l in W; lra.
Qed.
(* scatterPMMassesYZGrid: keeps the masses, moves x and y, and never touches z *)
Theorem C69_scatter : forall grid draws M, length draws = length M -> length (o_scatter grid draws M) = length M /\
  map pm (o_scatter grid draws M) = map pm M /\ map (fun p => snd (pp p)) (o_scatter grid draws M) = map (fun p => snd (pp p)) M /\
  (forall k p d, nth_error M k = Some p -> nth_error draws k = Some d -> nth_error (o_scatter grid draws M) k = Some (mkpt (pm p) (vadd (pp p) (grid * fst d, grid * snd d, 0)))).
Proof.
  intros grid. induction draws as [|[a b] draws IH]; intros [|p M] L; try discriminate.
  - repeat split; intros [|k] p d; discriminate.
  - injection L as L. destruct (IH M L) as (I1 & I2 & I3 & I4). unfold o_scatter in *. cbn [combine map length]. destruct (pp p) as [[x y] z] eqn:EP. cbn [pm pp snd]. rewrite I1, I2, I3. split; [reflexivity|]. split; [reflexivity|]. split; [reflexivity|].
    intros [|k] q d K1 K2; [|now apply I4]. cbn [nth_error] in *. injection K1 as <-. injection K2 as <-. rewrite EP. unfold vadd. cbn [fst snd]. f_equal. f_equal. refine (f_equal2 pair (f_equal2 pair _ _) _); ring.
Qed.
(* hypotheses met: an annulus that rejects one draw and then is filled *)
Example C69_case : o_genPointMassRandomDisk 3 1 2 1 [(/ 2, / 2); (1, / 2)] = Ok (Some [mkpt 3 (0, 2, 0)]).
Proof.
  rewrite C69_disk by lra. assert (V1 : vnorm (spread 2 2 (/ 2, / 2)) = 0). { unfold vnorm, spread. cbn [fst snd]. replace (0 ^ 2 + _ + _) with 0 by field. apply sqrt_0. }
  assert (V2 : vnorm (spread 2 2 (1, / 2)) = 2). { unfold vnorm, spread. cbn [fst snd]. replace (0 ^ 2 + _ + _) with (2 * 2) by field. apply sqrt_square; lra. }
  assert (E : hits 1 2 [(/ 2, / 2); (1, / 2)] = [spread 2 2 (1, / 2)]).
  { unfold hits. cbn [map filter]. rewrite V1, V2. destruct (Rle_dec 1 0); [lra|]. destruct (Rle_dec 1 2); [|lra]. destruct (Rle_dec 2 2); [reflexivity|lra]. }
  rewrite E. cbn [length Nat.leb firstn map]. do 4 f_equal. unfold spread. cbn [fst snd]. refine (f_equal2 pair (f_equal2 pair _ _) _); field.
Qed.
Print Assumptions C69_shell.
