(* C70: height maps and surface scans of /repo/matlab-src *)
From Verif Require Import MomentSpec PointSpec Qlm GlibShapes GlibShapesProofs Props_GlibShapes Sums.
From Verif Require Import Matlab Cplx.
From Coq Require Import Permutation.
Open Scope R_scope.

(* ---- specification ---- *)
(* sum over the cells of an nr x nc map *)
Definition over_map (nr nc : nat) (f : nat -> nat -> R) : R := sumR (map (fun c => sumR (map (fun r => f r c) (seq 0 nr))) (seq 0 nc)).
(* the material above the plane z = 0 in a cell: none where the height is missing or negative *)
Definition height (h : option R) : R := match h with None => 0 | Some h => Rmax h 0 end.
(* centre of cell k of n cells of width s centred on 0 *)
Definition mid (s : R) (n k : nat) : R := s * (INR k + / 2 - INR n / 2).
(* least squares *)
Definition col_x (d : list vec) := map (fun v : vec => fst (fst v)) d.
Definition col_y (d : list vec) := map (fun v : vec => snd (fst v)) d.
Definition col_z (d : list vec) := map (fun v : vec => snd v) d.
Definition over (d : list vec) (f : R -> R -> R -> R) : R := sumR (map (fun v : vec => let '(x, y, z) := v in f x y z) d).
(* b solves the normal equations of the fit z = b1 x + b2 y over d *)
Definition fits (d : list vec) (b : R * R) : Prop :=
  over d (fun x y z => x * (z - (fst b * x + snd b * y))) = 0 /\ over d (fun x y z => y * (z - (fst b * x + snd b * y))) = 0.

Lemma sumR_app l l' : sumR (l ++ l') = sumR l + sumR l'.
Proof. unfold sumR. induction l as [|a l IH]; cbn [app fold_right]; [ring|rewrite IH; ring]. Qed.
Lemma rlt_iff' a b : rlt a b = true <-> a < b.
Proof. unfold rlt. destruct (Rlt_dec a b); split; intros; try easy. Qed.
Lemma total_app l l' : total_mass (l ++ l') = total_mass l + total_mass l'.
Proof. unfold total_mass. induction l as [|a l IH]; cbn [app fold_right]; [ring|rewrite IH; ring]. Qed.
Lemma floor_spec x : IZR (Int_part x) <= x < IZR (Int_part x) + 1.
Proof. destruct (base_Int_part x). lra. Qed.
Lemma filter_all' {A} (f : A -> bool) l : (forall x, In x l -> f x = true) -> filter f l = l.
Proof. induction l as [|a l IH]; intros H; [reflexivity|]. cbn. rewrite (H a (or_introl eq_refl)). f_equal. apply IH. intros x Hx. apply H. now right. Qed.
Lemma filter_none {A} (f : A -> bool) l : (forall x, In x l -> f x = false) -> filter f l = [].
Proof. induction l as [|a l IH]; intros H; [reflexivity|]. cbn. rewrite (H a (or_introl eq_refl)). apply IH. intros x Hx. apply H. now right. Qed.

(* ---- C70: the solid under a height map ---- *)
Section Map.
Context (A : nat -> nat -> option R) (nr nc : nat) (xs ys zs density : R).
Definition layers (r c : nat) : nat := match A r c with None => 0 | Some h => Z.to_nat (Int_part (h / zs)) end.
Definition m_column (r c : nat) : list pt := map (fun k => mkpt (xs * ys * zs * density) (mid xs nc c, mid ys nr r, (INR k + / 2) * zs)) (seq 0 (layers r c)).
Lemma array_is : o_genPointMassArrayFrom2DArray A nr nc xs ys zs density
  = filter (fun p => rlt 0 (pm p)) (flat_map (fun c => flat_map (fun r => m_column r c) (seq 0 nr)) (seq 0 nc)).
Proof.
  unfold o_genPointMassArrayFrom2DArray. cbv zeta. f_equal. apply flat_map_ext. intros c. apply flat_map_ext. intros r. unfold m_column, layers.
  destruct (A r c) as [h|]; [|reflexivity]. destruct (0 <? Int_part (h / zs))%Z eqn:E.
  - apply map_ext. intros k. unfold mid. f_equal; [ring|]. refine (f_equal2 pair (f_equal2 pair _ _) _); field.
  - apply Z.ltb_ge in E. replace (Z.to_nat (Int_part (h / zs))) with 0%nat by lia. reflexivity.
Qed.
Lemma layers_iff r c k : 0 < zs -> (k < layers r c)%nat <-> exists h, A r c = Some h /\ INR (k + 1) * zs <= h.
Proof.
  intros Hz. unfold layers. destruct (A r c) as [h|]; [|split; [lia|intros (h & K & _); discriminate]]. destruct (floor_spec (h / zs)) as (F1 & F2). set (n := Int_part (h / zs)) in *.
  assert (E : h = h / zs * zs) by (field; lra). split.
  - intros K. exists h. split; [reflexivity|]. rewrite E. apply Rmult_le_compat_r; [lra|]. apply (Rle_trans _ (IZR n)); [|exact F1]. rewrite INR_IZR_INZ. apply IZR_le. lia.
  - intros (h' & W & K). injection W as <-. assert (Q : INR (k + 1) <= h / zs). { apply (Rmult_le_reg_r zs); [exact Hz|]. rewrite <- E. exact K. }
    assert (Q2 : INR (k + 1) < IZR n + 1) by lra. rewrite INR_IZR_INZ, <- plus_IZR in Q2. apply lt_IZR in Q2. lia.
Qed.
Lemma layers_bounds r c : 0 < zs -> height (A r c) - zs < INR (layers r c) * zs <= height (A r c).
Proof.
  intros Hz. unfold layers, height. destruct (A r c) as [h|]; [|cbn [INR]; lra]. destruct (floor_spec (h / zs)) as (F1 & F2). set (n := Int_part (h / zs)) in *. assert (E : h = h / zs * zs) by (field; lra). set (q := h / zs) in *. clearbody q n.
  destruct (Z_le_dec n 0) as [K|K].
  - replace (Z.to_nat n) with 0%nat by lia. cbn [INR]. assert (q < 1). { apply (Rlt_le_trans _ _ _ F2). apply IZR_le in K. lra. } split; [|rewrite Rmult_0_l; apply Rmax_r]. unfold Rmax. destruct (Rle_dec h 0); [lra|]. nra.
  - rewrite INR_IZR_INZ, Z2Nat.id by lia. assert (0 < IZR n) by (apply IZR_lt; lia). rewrite Rmax_left by nra. split; nra.
Qed.
End Map.
Theorem C70_points : forall (A : nat -> nat -> option R) (nr nc : nat) (xs ys zs density : R), 0 < xs -> 0 < ys -> 0 < zs -> 0 < density -> forall p,
  In p (o_genPointMassArrayFrom2DArray A nr nc xs ys zs density) <->
  exists r c k h, (r < nr)%nat /\ (c < nc)%nat /\ A r c = Some h /\ INR (k + 1) * zs <= h /\
     p = mkpt (xs * ys * zs * density) (mid xs nc c, mid ys nr r, (INR k + / 2) * zs).
Proof.
  intros A nr nc xs ys zs density Hx Hy Hz Hd p. assert (Hm : 0 < xs * ys * zs * density) by (repeat apply Rmult_lt_0_compat; assumption). rewrite array_is, filter_In, in_flat_map. split.
  - intros ((c & Hc & K) & _). apply in_flat_map in K. destruct K as (r & Hr & K). apply in_map_iff in K. destruct K as (k & <- & Hk). apply in_seq in Hk, Hr, Hc. destruct Hk as (_ & Hk). apply (layers_iff A zs r c k Hz) in Hk. destruct Hk as (h & E & K).
    exists r, c, k, h. repeat split; try assumption; lia.
  - intros (r & c & k & h & Hr & Hc & E & K & ->). cbn [pm]. split; [|now apply rlt_iff']. exists c. split; [apply in_seq; lia|]. apply in_flat_map. exists r. split; [apply in_seq; lia|]. apply in_map_iff. exists k. split; [reflexivity|]. apply in_seq. split; [lia|].
    apply (layers_iff A zs r c k Hz). exists h. now split.
Qed.
Theorem C70_mass : forall (A : nat -> nat -> option R) (nr nc : nat) (xs ys zs density : R), 0 < xs -> 0 < ys -> 0 < zs -> 0 < density ->
  let vol := over_map nr nc (fun r c => xs * ys * height (A r c)) in
  density * (vol - INR nr * INR nc * (xs * ys * zs)) <= total_mass (o_genPointMassArrayFrom2DArray A nr nc xs ys zs density) <= density * vol.
Proof.
  intros A nr nc xs ys zs density Hx Hy Hz Hd vol. assert (Hm : 0 < xs * ys * zs * density) by (repeat apply Rmult_lt_0_compat; assumption). rewrite array_is, filter_all'.
  2: { intros p Hp. apply in_flat_map in Hp. destruct Hp as (c & _ & Hp). apply in_flat_map in Hp. destruct Hp as (r & _ & Hp). apply in_map_iff in Hp. destruct Hp as (k & <- & _). now apply rlt_iff'. }
  assert (Col : forall r c, total_mass (m_column A nr nc xs ys zs density r c) = density * (xs * ys) * (INR (layers A zs r c) * zs)).
  { intros r c. unfold m_column. assert (G : forall n a, total_mass (map (fun k => mkpt (xs * ys * zs * density) (mid xs nc c, mid ys nr r, (INR k + / 2) * zs)) (seq a n)) = INR n * (xs * ys * zs * density)).
    { induction n as [|n IH]; intros a; [cbn; ring|]. rewrite S_INR. cbn [seq map total_mass fold_right pm]. unfold total_mass in IH. rewrite IH. ring. } rewrite G. ring. }
  assert (T : total_mass (flat_map (fun c => flat_map (fun r => m_column A nr nc xs ys zs density r c) (seq 0 nr)) (seq 0 nc)) = over_map nr nc (fun r c => density * (xs * ys) * (INR (layers A zs r c) * zs))).
  { unfold over_map. assert (GR : forall c l, total_mass (flat_map (fun r => m_column A nr nc xs ys zs density r c) l) = sumR (map (fun r => density * (xs * ys) * (INR (layers A zs r c) * zs)) l)).
    { intros c. induction l as [|r l IH]; [reflexivity|]. cbn [flat_map map]. rewrite total_app, Col, IH. reflexivity. }
    induction (seq 0 nc) as [|c l IH]; [reflexivity|]. cbn [flat_map map]. rewrite total_app, GR, IH. reflexivity. }
  rewrite T. clear T Col.
  assert (LE : forall f g, (forall r c, f r c <= g r c) -> over_map nr nc f <= over_map nr nc g).
  { intros f g H. unfold over_map. assert (I : forall {B} (l : list B) (u v : B -> R), (forall b, u b <= v b) -> sumR (map u l) <= sumR (map v l)).
    { intros B l u v W. induction l as [|b l IH]; [apply Rle_refl|]. cbn [map sumR fold_right]. apply Rplus_le_compat; [apply W|exact IH]. }
    apply I. intros c. apply I. intros r. apply H. }
  assert (SC : forall k f, over_map nr nc (fun r c => k * f r c) = k * over_map nr nc f).
  { intros k f. unfold over_map. assert (I : forall {B} (l : list B) (u : B -> R), sumR (map (fun b => k * u b) l) = k * sumR (map u l)).
    { intros B l u. induction l as [|b l IH]; [cbn; ring|]. cbn [map]. unfold sumR in *. cbn [fold_right]. rewrite IH. ring. }
    rewrite <- I. f_equal. apply map_ext. intros c. apply I. }
  assert (SUB : over_map nr nc (fun r c => xs * ys * height (A r c) + - 1 * (xs * ys * zs)) = vol - INR nr * INR nc * (xs * ys * zs)).
  { unfold vol, over_map. assert (I : forall {B} (l : list B) (u : B -> R) k, sumR (map (fun b => u b + k) l) = sumR (map u l) + INR (length l) * k).
    { intros B l u k. induction l as [|b l IH]; [cbn; ring|]. cbn [map length]. rewrite S_INR. unfold sumR in *. cbn [fold_right]. rewrite IH. ring. }
    rewrite (map_ext _ (fun c => sumR (map (fun r => xs * ys * height (A r c)) (seq 0 nr)) + INR nr * (- 1 * (xs * ys * zs)))) by (intros c; now rewrite I, seq_length). rewrite I, seq_length. ring. }
  assert (Hxy : 0 < density * (xs * ys)) by (apply Rmult_lt_0_compat; [assumption|now apply Rmult_lt_0_compat]).
  rewrite <- SUB. unfold vol. rewrite <- !SC. split; apply LE; intros r c; destruct (layers_bounds A zs r c Hz) as (B1 & B2).
  - replace (density * (xs * ys * height (A r c) + - 1 * (xs * ys * zs))) with (density * (xs * ys) * (height (A r c) - zs)) by ring. apply Rmult_le_compat_l; lra.
  - replace (density * (xs * ys * height (A r c))) with (density * (xs * ys) * height (A r c)) by ring. apply Rmult_le_compat_l; lra.
Qed.
(* nothing at all for a density, or an odd number of spacings, that is not positive *)
Theorem C70_no_mass : forall (A : nat -> nat -> option R) (nr nc : nat) (xs ys zs density : R), xs * ys * zs * density <= 0 -> o_genPointMassArrayFrom2DArray A nr nc xs ys zs density = [].
Proof.
  intros A nr nc xs ys zs density Hm. rewrite array_is. apply filter_none. intros p Hp. apply in_flat_map in Hp. destruct Hp as (c & _ & Hp). apply in_flat_map in Hp. destruct Hp as (r & _ & Hp). apply in_map_iff in Hp. destruct Hp as (k & <- & _). cbn [pm].
  destruct (rlt 0 _) eqn:E; [apply rlt_iff' in E; lra|reflexivity].
Qed.

(* no point twice *)
Lemma mid_inj s n i j : s <> 0 -> mid s n i = mid s n j -> i = j.
Proof. unfold mid. intros Hs E. apply Rmult_eq_reg_l in E; [|exact Hs]. apply INR_eq. lra. Qed.
Theorem C70_distinct : forall (A : nat -> nat -> option R) (nr nc : nat) (xs ys zs density : R), xs <> 0 -> ys <> 0 -> zs <> 0 ->
  NoDup (o_genPointMassArrayFrom2DArray A nr nc xs ys zs density).
Proof.
  intros A nr nc xs ys zs density Hx Hy Hz. rewrite array_is. apply NoDup_filter. apply nodup_flat.
  - intros c _. apply nodup_flat.
    + intros r _. apply nodup_mapseq. intros a b _ _ E. injection E as E. apply Rmult_eq_reg_r in E; [|exact Hz]. apply INR_eq. lra.
    + intros r r' v _ _ V V'. apply in_map_iff in V, V'. destruct V as (k & <- & _), V' as (k' & E & _). injection E as E _. symmetry. now apply (mid_inj ys nr).
  - intros c c' v _ _ V V'. apply in_flat_map in V, V'. destruct V as (r & _ & V), V' as (r' & _ & V'). apply in_map_iff in V, V'. destruct V as (k & <- & _), V' as (k' & E & _). injection E as E _ _. symmetry. now apply (mid_inj xs nc).
Qed.
(* hypotheses met: a 1 x 2 map with one missing height *)
Example C70_map_case : forall p, In p (o_genPointMassArrayFrom2DArray (fun r c => if Nat.eqb c 0 then Some (5 / 2) else None) 1 2 1 1 1 4) <->
  p = mkpt 4 (- / 2, 0, / 2) \/ p = mkpt 4 (- / 2, 0, 3 / 2).
Proof.
  intros p. rewrite C70_points by lra. split.
  - intros (r & c & k & h & Hr & Hc & E & K & ->). destruct (Nat.eqb c 0) eqn:Ec; [|discriminate]. apply Nat.eqb_eq in Ec. subst c. injection E as <-. assert (r = 0)%nat by lia. subst r.
    assert (k = 0 \/ k = 1)%nat as [-> | ->]. { assert (INR (k + 1) < INR 3) by (cbn [INR]; lra). apply INR_lt in H. lia. }
    + left. unfold mid. cbn [INR]. f_equal; [ring|]. refine (f_equal2 pair (f_equal2 pair _ _) _); field.
    + right. unfold mid. cbn [INR]. f_equal; [ring|]. refine (f_equal2 pair (f_equal2 pair _ _) _); field.
  - intros [-> | ->]; [exists 0%nat, 0%nat, 0%nat, (5 / 2)|exists 0%nat, 0%nat, 1%nat, (5 / 2)]; unfold mid; cbn [INR Nat.eqb Nat.add]; (split; [lia|]; split; [lia|]; split; [reflexivity|]; split; [lra|]); (f_equal; [ring|]; refine (f_equal2 pair (f_equal2 pair _ _) _); field).
Qed.

(* ---- C70: levelling a scan ---- *)
Lemma over_ext d f g : (forall x y z, f x y z = g x y z) -> over d f = over d g.
Proof. intros H. unfold over. f_equal. apply map_ext. intros [[x y] z]. apply H. Qed.
Lemma over_plus d f g : over d (fun x y z => f x y z + g x y z) = over d f + over d g.
Proof. unfold over, sumR. induction d as [|[[x y] z] d IH]; cbn [map fold_right]; [ring|rewrite IH; ring]. Qed.
Lemma over_scal d k f : over d (fun x y z => k * f x y z) = k * over d f.
Proof. unfold over, sumR. induction d as [|[[x y] z] d IH]; cbn [map fold_right]; [ring|rewrite IH; ring]. Qed.
Lemma over_const d k : over d (fun _ _ _ => k) = INR (length d) * k.
Proof. unfold over. rewrite <- (sumR_const k d). f_equal. apply map_ext. now intros [[x y] z]. Qed.
Lemma over_map' d h f : over (map h d) f = over d (fun x y z => let '(x', y', z') := h (x, y, z) in f x' y' z').
Proof. unfold over. rewrite map_map. f_equal. apply map_ext. intros [[x y] z]. now destruct (h (x, y, z)) as [[a b] c]. Qed.
Lemma over_nonneg d f : (forall x y z, 0 <= f x y z) -> 0 <= over d f.
Proof. intros H. unfold over, sumR. induction d as [|[[x y] z] d IH]; cbn [map fold_right]; [lra|]. apply Rplus_le_le_0_compat; [apply H|exact IH]. Qed.
Lemma over_zero d f : (forall x y z, 0 <= f x y z) -> over d f = 0 -> forall x y z, In (x, y, z) d -> f x y z = 0.
Proof.
  intros H. induction d as [|[[a b] c] d IH]; intros E x y z K; [destruct K|]. assert (P := over_nonneg d f H). assert (Q := H a b c).
  assert (E' : f a b c + over d f = 0) by exact E. destruct K as [K|K]; [injection K as <- <- <-; lra|]. apply IH; [lra|exact K].
Qed.
Lemma mean_over d (g : vec -> R) : o_mean (map g d) = over d (fun x y z => g (x, y, z)) / INR (length d).
Proof. unfold o_mean, over. rewrite map_length. f_equal. f_equal. apply map_ext. now intros [[x y] z]. Qed.

Section Scan.
Context (ols : list vec -> R * R) (d : list vec).
(* what the rows become, in one step *)
Definition sc_mx := o_mean (col_x d). Definition sc_my := o_mean (col_y d). Definition sc_b := ols (o_centre d).
Definition sc_level (v : vec) : R := let '(x, y, z) := v in z - ((x - sc_mx) * fst sc_b + (y - sc_my) * snd sc_b).
Definition sc_mz := over d (fun x y z => sc_level (x, y, z)) / INR (length d).
Definition sc_row (v : vec) : vec := let '(x, y, z) := v in ((x - sc_mx) / 1000, (y - sc_my) / 1000, (sc_level (x, y, z) - sc_mz) / 1000).
Lemma scan_is : o_scanCenterAndRemoveLinear ols d = map sc_row d.
Proof.
  unfold o_scanCenterAndRemoveLinear. fold sc_b. rewrite (surjective_pairing sc_b). rewrite mean_over, map_length. unfold o_centre. fold (col_x d) (col_y d) sc_mx sc_my. rewrite !map_length, !map_map, !over_map'. cbn [snd].
  match goal with |- map ?f d = _ => transitivity (map (fun v : vec => let '(x, y, z) := v in ((x - sc_mx) * / 1000, (y - sc_my) * / 1000, (sc_level (x, y, z) - sc_mz) * / 1000)) d) end.
  - apply map_ext. now intros [[x y] z].
  - apply map_ext. intros [[x y] z]. unfold sc_row. reflexivity.
Qed.
End Scan.
Lemma centred_sums d : (0 < length d)%nat -> over d (fun x y z => x - sc_mx d) = 0 /\ over d (fun x y z => y - sc_my d) = 0.
Proof.
  intros HN. assert (N := INRpos _ HN). unfold sc_mx, sc_my, col_x, col_y. rewrite !mean_over. cbn [fst snd]. split.
  - rewrite (over_ext d _ (fun x y z => x + - (over d (fun x _ _ => x) / INR (length d)))) by (intros; ring). rewrite over_plus, over_const. field. lra.
  - rewrite (over_ext d _ (fun x y z => y + - (over d (fun _ y _ => y) / INR (length d)))) by (intros; ring). rewrite over_plus, over_const. field. lra.
Qed.
(* when the regression solves its normal equations, the levelled scan has mean zero in all columns, no slope left in x or y, and
   no plane can be taken off it that makes it flatter *)
Theorem C70_scan : forall ols d, (0 < length d)%nat -> fits (o_centre d) (ols (o_centre d)) ->
  let e := o_scanCenterAndRemoveLinear ols d in
  length e = length d /\ over e (fun x _ _ => x) = 0 /\ over e (fun _ y _ => y) = 0 /\ over e (fun _ _ z => z) = 0 /\
  over e (fun x _ z => x * z) = 0 /\ over e (fun _ y z => y * z) = 0 /\
  (forall a b c, over e (fun _ _ z => z ^ 2) <= over e (fun x y z => (z - (a + b * x + c * y)) ^ 2)).
Proof.
  intros ols d HN [F1 F2] e. assert (N := INRpos _ HN). unfold e. rewrite scan_is. rewrite map_length. split; [reflexivity|].
  destruct (centred_sums d HN) as (X0 & Y0). set (mx := sc_mx d) in *. set (my := sc_my d) in *.
  assert (HX : over (map (sc_row ols d) d) (fun x _ _ => x) = 0).
  { rewrite over_map'. unfold sc_row. fold mx my. rewrite (over_ext d _ (fun x y z => / 1000 * (x - mx))) by (intros; unfold Rdiv; ring). rewrite over_scal, X0. ring. }
  assert (HY : over (map (sc_row ols d) d) (fun _ y _ => y) = 0).
  { rewrite over_map'. unfold sc_row. fold mx my. rewrite (over_ext d _ (fun x y z => / 1000 * (y - my))) by (intros; unfold Rdiv; ring). rewrite over_scal, Y0. ring. }
  assert (HZ : over (map (sc_row ols d) d) (fun _ _ z => z) = 0).
  { rewrite over_map'. unfold sc_row. rewrite (over_ext d _ (fun x y z => / 1000 * (sc_level ols d (x, y, z) + - sc_mz ols d))) by (intros; unfold Rdiv; ring). rewrite over_scal, over_plus, over_const. unfold sc_mz. field. lra. }
  assert (F1' : over (o_centre d) (fun x y z => x * (z - (fst (sc_b ols d) * x + snd (sc_b ols d) * y))) = 0) by exact F1.
  assert (F2' : over (o_centre d) (fun x y z => y * (z - (fst (sc_b ols d) * x + snd (sc_b ols d) * y))) = 0) by exact F2.
  change (o_centre d) with (map (fun v : vec => let '(x, y, z) := v in (x - mx, y - my, z)) d) in F1', F2'. rewrite over_map' in F1', F2'.
  assert (HXZ : over (map (sc_row ols d) d) (fun x _ z => x * z) = 0).
  { rewrite over_map'. unfold sc_row. fold mx my. 
    rewrite (over_ext d _ (fun x y z => / 1000 * / 1000 * ((x - mx) * (z - (fst (sc_b ols d) * (x - mx) + snd (sc_b ols d) * (y - my))) + - sc_mz ols d * (x - mx)))).
    2: { intros. unfold sc_level. fold mx my. unfold Rdiv. ring. }
    rewrite over_scal, over_plus, over_scal, X0. rewrite F1'. ring. }
  assert (HYZ : over (map (sc_row ols d) d) (fun _ y z => y * z) = 0).
  { rewrite over_map'. unfold sc_row. fold mx my. 
    rewrite (over_ext d _ (fun x y z => / 1000 * / 1000 * ((y - my) * (z - (fst (sc_b ols d) * (x - mx) + snd (sc_b ols d) * (y - my))) + - sc_mz ols d * (y - my)))).
    2: { intros. unfold sc_level. fold mx my. unfold Rdiv. ring. }
    rewrite over_scal, over_plus, over_scal, Y0. rewrite F2'. ring. }
  split; [exact HX|]. split; [exact HY|]. split; [exact HZ|]. split; [exact HXZ|]. split; [exact HYZ|]. intros a b c. set (E := map (sc_row ols d) d) in *. clearbody E.
  rewrite (over_ext E (fun x y z => (z - (a + b * x + c * y)) ^ 2) (fun x y z => z ^ 2 + (- 2 * a * z + (- 2 * b * (x * z) + (- 2 * c * (y * z) + (a + b * x + c * y) ^ 2))))) by (intros; ring).
  rewrite !over_plus, !over_scal, HZ, HXZ, HYZ. assert (P : 0 <= over E (fun x y z => (a + b * x + c * y) ^ 2)) by (apply over_nonneg; intros; apply pow2_ge_0). lra.
Qed.
(* a flat tilted surface levels to nothing; in general the scan loses a plane and is scaled from mm to m, point for point *)
Theorem C70_scan_affine : forall ols d, exists a b c mx my, o_scanCenterAndRemoveLinear ols d
  = map (fun v : vec => let '(x, y, z) := v in ((x - mx) / 1000, (y - my) / 1000, (z - (a + b * x + c * y)) / 1000)) d.
Proof.
  intros ols d. rewrite scan_is. set (b1 := fst (sc_b ols d)). set (b2 := snd (sc_b ols d)). exists (sc_mz ols d - (sc_mx d * b1 + sc_my d * b2)), b1, b2, (sc_mx d), (sc_my d). apply map_ext. intros [[x y] z]. unfold sc_row, sc_level. fold b1 b2.
  refine (f_equal2 pair (f_equal2 pair _ _) _); unfold Rdiv; ring.
Qed.
Theorem C70_flat : forall ols d a b c, (0 < length d)%nat -> fits (o_centre d) (ols (o_centre d)) -> (forall x y z, In (x, y, z) d -> z = a + b * x + c * y) ->
  forall x y z, In (x, y, z) (o_scanCenterAndRemoveLinear ols d) -> z = 0.
Proof.
  intros ols d a b c HN F P x y z K. destruct (C70_scan_affine ols d) as (a' & b' & c' & mx & my & E). destruct (C70_scan ols d HN F) as (_ & _ & _ & _ & _ & _ & L). cbv zeta in L. set (e := o_scanCenterAndRemoveLinear ols d) in *.
  (* the plane left on the scan *)
  set (B := b - b'). set (G := c - c'). set (A := (a - a' + B * mx + G * my) / 1000).
  assert (PL : forall x y z, In (x, y, z) e -> z = A + B * x + G * y).
  { intros u v w W. rewrite E in W. apply in_map_iff in W. destruct W as ([[x0 y0] z0] & Q & W). injection Q as <- <- <-. rewrite (P _ _ _ W). unfold A, B, G. field. }
  assert (Z : over e (fun x y z => (z - (A + B * x + G * y)) ^ 2) = 0).
  { unfold over. transitivity (sumR (map (fun _ : vec => 0) e)); [|rewrite sumR_const; ring]. f_equal. apply map_ext_in. intros [[u v] w] W. rewrite (PL _ _ _ W) at 1. ring. }
  specialize (L A B G). rewrite Z in L. assert (Q : over e (fun _ _ z => z ^ 2) = 0) by (apply Rle_antisym; [exact L|apply over_nonneg; intros; apply pow2_ge_0]).
  assert (Q2 := over_zero e (fun _ _ z => z ^ 2) ltac:(intros; apply pow2_ge_0) Q x y z K). cbv beta in Q2. destruct (Req_dec z 0) as [|n]; [assumption|]. destruct (pow_nonzero z 2 n Q2).
Qed.
(* the hypothesis is met by the usual solution whenever the points are not in line *)
Definition cramer (d : list vec) : R * R :=
  let sxx := over d (fun x _ _ => x * x) in let sxy := over d (fun x y _ => x * y) in let syy := over d (fun _ y _ => y * y) in
  let sxz := over d (fun x _ z => x * z) in let syz := over d (fun _ y z => y * z) in
  let det := sxx * syy - sxy * sxy in ((sxz * syy - sxy * syz) / det, (sxx * syz - sxy * sxz) / det).
Theorem C70_regression : forall d, over d (fun x _ _ => x * x) * over d (fun _ y _ => y * y) <> over d (fun x y _ => x * y) ^ 2 ->
  fits d (cramer d) /\ forall b, fits d b -> b = cramer d.
Proof.
  intros d H. assert (N1 : forall b, over d (fun x y z => x * (z - (fst b * x + snd b * y))) = over d (fun x _ z => x * z) - (fst b * over d (fun x _ _ => x * x) + snd b * over d (fun x y _ => x * y))).
  { intros b. rewrite (over_ext d _ (fun x y z => x * z + (- fst b * (x * x) + - snd b * (x * y)))) by (intros; ring). rewrite !over_plus, !over_scal. ring. }
  assert (N2 : forall b, over d (fun x y z => y * (z - (fst b * x + snd b * y))) = over d (fun _ y z => y * z) - (fst b * over d (fun x y _ => x * y) + snd b * over d (fun _ y _ => y * y))).
  { intros b. rewrite (over_ext d _ (fun x y z => y * z + (- fst b * (x * y) + - snd b * (y * y)))) by (intros; ring). rewrite !over_plus, !over_scal. ring. }
  unfold fits, cramer. cbv zeta. set (sxx := over d (fun x _ _ => x * x)) in *. set (sxy := over d (fun x y _ => x * y)) in *. set (syy := over d (fun _ y _ => y * y)) in *. set (sxz := over d (fun x _ z => x * z)) in *. set (syz := over d (fun _ y z => y * z)) in *.
  assert (D : sxx * syy - sxy * sxy <> 0) by (intros K; apply H; lra). split.
  - rewrite N1, N2. cbn [fst snd]. split; field; exact D.
  - intros [b1 b2]. rewrite N1, N2. cbn [fst snd]. intros (K1 & K2). clearbody sxx sxy syy sxz syz. refine (f_equal2 pair _ _); apply (Rmult_eq_reg_r (sxx * syy - sxy * sxy)); try exact D; unfold Rdiv; rewrite Rmult_assoc, Rinv_l, Rmult_1_r by exact D; nra.
Qed.
Example C70_scan_case : fits (o_centre [(0, 0, 0); (2, 0, 1); (0, 2, 5)]) (cramer (o_centre [(0, 0, 0); (2, 0, 1); (0, 2, 5)])).
Proof.
  apply C70_regression. unfold over, o_centre, o_mean, sumR. cbn [map fold_right fst snd length INR]. lra.
Qed.
Print Assumptions C70_mass. Print Assumptions C70_flat.
