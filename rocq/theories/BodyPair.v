(* Bilinear expressions in the moments of two bodies as double integrals, and their limits. *)
From Coq Require Import Reals Lra Lia ZArith List.
From Coquelicot Require Import Coquelicot.
From Verif Require Import Props_Glib Props_Moments Props_Multipole Props_Torque Addition Legendre TransRecProofs RotationsProofs2 RotSpec Rotations TransSpec GlibProofs GlibProofs2 NewtonSpec Newton CDeriv MultipoleLib MultipoleProofs MultipoleProofs2.
From Verif Require Import Tri Solid Translations TranslationsProofs Pg2Multi Pg2MultiProofs Props_Translations Props_Rotations Props_Newton Rotor Irreg Irreg2 Props_Series Props_Series2 VInt.
From Verif Require Import SeriesSpec BodySpec.
From Verif Require Import Cplx.
Import ListNotations.
Open Scope C_scope.

(* finite choice *)
Lemma zchoice (P : Z -> C -> Prop) a b : (forall k, (a <= k < b)%Z -> exists x, P k x) -> exists f : Z -> C, forall k, (a <= k < b)%Z -> P k (f k).
Proof.
  intros H. assert (G : forall n : nat, exists f : Z -> C, forall k, (a <= k < a + Z.of_nat n)%Z -> (k < b)%Z -> P k (f k)).
  { induction n as [|n (f & Hf)]; [exists (fun _ => RtoC 0); intros; lia|].
    destruct (Z_lt_le_dec (a + Z.of_nat n) b) as [h|h].
    - destruct (H (a + Z.of_nat n)%Z ltac:(lia)) as (x & Hx). exists (fun k => if Z.eq_dec k (a + Z.of_nat n) then x else f k). intros k Hk Hb.
      destruct (Z.eq_dec k (a + Z.of_nat n)) as [->|Hn]; [exact Hx|]. apply Hf; lia.
    - exists f. intros k Hk Hb. apply Hf; lia. }
  destruct (G (Z.to_nat (b - a))) as (f & Hf). exists f. intros k Hk. apply Hf; lia.
Qed.
Lemma zchoice2 (P : Z -> Z -> C -> Prop) a b c d : (forall k j, (a <= k < b)%Z -> (c <= j < d)%Z -> exists x, P k j x) ->
  exists f : Z -> Z -> C, forall k j, (a <= k < b)%Z -> (c <= j < d)%Z -> P k j (f k j).
Proof.
  intros H. assert (G : forall n : nat, exists f : Z -> Z -> C, forall k j, (a <= k < a + Z.of_nat n)%Z -> (k < b)%Z -> (c <= j < d)%Z -> P k j (f k j)).
  { induction n as [|n (f & Hf)]; [exists (fun _ _ => RtoC 0); intros; lia|].
    destruct (Z_lt_le_dec (a + Z.of_nat n) b) as [h|h].
    - destruct (zchoice (P (a + Z.of_nat n)%Z) c d) as (x & Hx); [intros j Hj; apply H; lia|]. exists (fun k j => if Z.eq_dec k (a + Z.of_nat n) then x j else f k j). intros k j Hk Hb Hj.
      destruct (Z.eq_dec k (a + Z.of_nat n)) as [->|Hn]; [now apply Hx|]. apply Hf; lia.
    - exists f. intros k j Hk Hb Hj. apply Hf; lia. }
  destruct (G (Z.to_nat (b - a))) as (f & Hf). exists f. intros k j Hk Hj. apply Hf; lia.
Qed.
(* integrals of the S_l^m over a body, up to degree N *)
Definition smom (B : body) (N : Z) (mu : Z -> Z -> C) : Prop := forall l m, (0 <= l <= N)%Z -> (Z.abs m <= N)%Z -> B (fun x y z => S_ l m (x, y, z)) (mu l m).
Lemma density_smom q d B : regular B -> (0 <= deg q)%Z -> filled_moments q d B -> exists mu, smom B (deg q) mu /\ (forall l m, (0 <= l <= deg q)%Z -> (Z.abs m <= deg q)%Z -> hq q l m = RtoC d * mu l m).
Proof.
  intros RB HL [H _].
  destruct (zchoice2 (fun l m x => B (fun x y z => S_ l m (x, y, z)) x /\ hq q l m = RtoC d * x) 0 (deg q + 1) (- deg q) (deg q + 1)) as (mu & Hmu).
  - intros l m Hl Hm. destruct (Z_lt_le_dec l (Z.abs m)) as [h|h].
    + destruct (H 0%Z 0%Z ltac:(lia) ltac:(lia)) as (I & HI & _). exists (RtoC 0). split.
      * apply (reg_ext B RB (fun x y z => RtoC 0 * rsolid 0 0 (x, y, z))); [intros; rewrite S_zero by lia; ring|].
        apply (reg_val B _ (RtoC 0 * I)); [ring|]. now apply (reg_scal B RB).
      * rewrite supp_hq by lia. ring.
    + destruct (H l m ltac:(lia) ltac:(lia)) as (I & HI & Eq). assert (N0 := nrmC_neq0 l m ltac:(lia)). exists (/ RtoC (nrm l m) * I). split.
      * apply (reg_ext B RB (fun x y z => / RtoC (nrm l m) * rsolid l m (x, y, z))); [intros; rewrite rsolid_S; field; exact N0|]. now apply (reg_scal B RB).
      * unfold hq. rewrite (proj2 (Z.leb_le _ _)) by lia. rewrite Eq. field. exact N0.
  - exists mu. split; [intros l m Hl Hm; apply Hmu; lia|]. intros l m Hl Hm. apply Hmu; lia.
Qed.
Definition Sv (v : vec) : Z -> Z -> C := fun l m => S_ l m v.
(* linear expressions pass through the integral *)
Lemma int_scal_r B (f : R -> R -> R -> C) I (c : C) : regular B -> B f I -> B (fun x y z => f x y z * c) (I * c).
Proof. intros RB H. apply (reg_ext B RB (fun x y z => c * f x y z)); [intros; ring|]. apply (reg_val B _ (c * I)); [ring|]. now apply (reg_scal B RB). Qed.
Lemma int_hpair B N (F : vec -> Z -> Z -> C) mu (g : Z -> Z -> C) : regular B -> (0 <= N)%Z -> (forall l m, (0 <= l <= N)%Z -> (Z.abs m <= N)%Z -> B (fun x y z => F (x, y, z) l m) (mu l m)) ->
  B (fun x y z => hpair N (F (x, y, z)) g) (hpair N mu g).
Proof.
  intros RB HN H. unfold hpair.
  apply (reg_zsum B 0 (N + 1) (fun l x y z => zsum (- N) (N + 1) (fun m => F (x, y, z) l m * g l m)) (fun l => zsum (- N) (N + 1) (fun m => mu l m * g l m)) RB); [lia|]. intros l Hl.
  apply (reg_zsum B (- N) (N + 1) (fun m x y z => F (x, y, z) l m * g l m) (fun m => mu l m * g l m) RB); [lia|]. intros m Hm. apply int_scal_r; [exact RB|]. apply H; lia.
Qed.
Lemma int_hpair_r B N (f : Z -> Z -> C) (F : vec -> Z -> Z -> C) mu : regular B -> (0 <= N)%Z -> (forall l m, (0 <= l <= N)%Z -> (Z.abs m <= N)%Z -> B (fun x y z => F (x, y, z) l m) (mu l m)) ->
  B (fun x y z => hpair N f (F (x, y, z))) (hpair N f mu).
Proof.
  intros RB HN H. unfold hpair.
  apply (reg_zsum B 0 (N + 1) (fun l x y z => zsum (- N) (N + 1) (fun m => f l m * F (x, y, z) l m)) (fun l => zsum (- N) (N + 1) (fun m => f l m * mu l m)) RB); [lia|]. intros l Hl.
  apply (reg_zsum B (- N) (N + 1) (fun m x y z => f l m * F (x, y, z) l m) (fun m => f l m * mu l m) RB); [lia|]. intros m Hm. apply (reg_scal B RB). apply H; lia.
Qed.
Lemma int_TG B N G mu l m : regular B -> (0 <= N)%Z -> smom B N mu -> B (fun x y z => TG N G (Sv (x, y, z)) l m) (TG N G mu l m).
Proof.
  intros RB HN H. unfold TG.
  apply (reg_zsum B 0 (N + 1) (fun a x y z => zsum (- N) (N + 1) (fun b => G (l - a)%Z (m - b)%Z * S_ a b (x, y, z))) (fun a => zsum (- N) (N + 1) (fun b => G (l - a)%Z (m - b)%Z * mu a b)) RB); [lia|]. intros a Ha.
  apply (reg_zsum B (- N) (N + 1) (fun b x y z => G (l - a)%Z (m - b)%Z * S_ a b (x, y, z)) (fun b => G (l - a)%Z (m - b)%Z * mu a b) RB); [lia|]. intros b Hb. apply (reg_scal B RB). apply H; lia.
Qed.
Lemma int_Tq2Q B N mu t l m : regular B -> (0 <= N)%Z -> smom B N mu -> B (fun x y z => Tq2Q N (Sv (x, y, z)) t l m) (Tq2Q N mu t l m).
Proof.
  intros RB HN H. unfold Tq2Q.
  apply (reg_zsum B 0 (N + 1) (fun a x y z => zsum (- a) (a + 1) (fun b => sgnC a * S_ a b (x, y, z) * I_ (l + a) (m + b) t)) (fun a => zsum (- a) (a + 1) (fun b => sgnC a * mu a b * I_ (l + a) (m + b) t)) RB); [lia|]. intros a Ha.
  apply (reg_zsum B (- a) (a + 1) (fun b x y z => sgnC a * S_ a b (x, y, z) * I_ (l + a) (m + b) t) (fun b => sgnC a * mu a b * I_ (l + a) (m + b) t) RB); [lia|]. intros b Hb.
  apply int_scal_r; [exact RB|]. apply (reg_scal B RB). apply H; lia.
Qed.
(* the field of the moved body *)
Lemma hQ_q2Q qs t Q l m : (0 <= deg qs)%Z -> vnorm t <> 0%R -> translate_q2Q qs t = Ok Q -> (0 <= l <= deg qs)%Z -> (Z.abs m <= l)%Z -> hQ Q l m = Tq2Q (deg qs) (hq qs) t l m.
Proof.
  intros HL Ht E Hl Hm. destruct (translate_q2Q_holds qs t HL Ht) as (Q' & E' & D & [H _]). rewrite E in E'. injection E' as <-.
  unfold hQ. rewrite (proj2 (Z.leb_le _ _)) by lia. rewrite H by lia. assert (N0 := nrm_neq0 l m ltac:(lia)). assert (N1 : (2 * IZR l + 1)%R <> 0%R) by (apply odd_neq0; lia).
  rewrite <- Cmult_assoc, (Cmult_comm (Tq2Q _ _ _ _ _)), Cmult_assoc, <- RtoC_mult. replace ((2 * IZR l + 1) / nrm l m * (nrm l m / (2 * IZR l + 1)))%R with 1%R by (field; split; assumption). ring.
Qed.
Lemma Tq2Q_scal N (c : C) f t l m : Tq2Q N (fun a b => c * f a b) t l m = c * Tq2Q N f t l m.
Proof. unfold Tq2Q. rewrite <- zsum_scal_l. apply zsum_ext. intros a _. rewrite <- zsum_scal_l. apply zsum_ext. intros b _. ring. Qed.
Lemma Tq2Q_ext N (f g : Z -> Z -> C) t l m : (forall a b, (0 <= a <= N)%Z -> (Z.abs b <= a)%Z -> f a b = g a b) -> Tq2Q N f t l m = Tq2Q N g t l m.
Proof. intros H. unfold Tq2Q. apply zsum_ext. intros a Ha. apply zsum_ext. intros b Hb. rewrite H by lia. reflexivity. Qed.
Lemma Tq2Q_Hs N w t l m : (0 <= N)%Z -> (0 < vnorm t)%R -> (0 <= l)%Z -> (Z.abs m <= l)%Z -> Tq2Q N (Sv w) t l m = RtoC (/ (4 * PI)) * Hs N l m w t.
Proof.
  intros HN Ht Hl Hm. unfold Tq2Q, Hs, DK, Sv. rewrite <- zsum_scal_l. apply zsum_ext. intros a Ha. rewrite <- !zsum_scal_l. apply zsum_ext. intros b Hb. rewrite I_K by (lia || assumption). ring.
Qed.
Lemma hpair_supp N (f g : Z -> Z -> C) : (forall l m, (0 <= l <= N)%Z -> (l < Z.abs m)%Z -> f l m = 0) -> hpair N f g = zsum 0 (N + 1) (fun l => zsum (- l) (l + 1) (fun m => f l m * g l m)).
Proof.
  intros H. unfold hpair. apply zsum_ext. intros l Hl. rewrite (zsum_sub (- N) (N + 1) (- l) (l + 1)); [reflexivity|lia|lia|]. intros k Hk Hn. rewrite H by lia. ring.
Qed.
Lemma en_hpair N v w t : (0 <= N)%Z -> (0 < vnorm t)%R -> hpair N (Sv v) (Tq2Q N (Sv w) t) = RtoC (/ (4 * PI)) * en N v w t.
Proof.
  intros HN Ht. rewrite (hpair_supp N (Sv v)) by (intros; unfold Sv; apply S_zero; lia). unfold en. rewrite <- zsum_scal_l. apply zsum_ext. intros l Hl. rewrite <- zsum_scal_l. apply zsum_ext. intros m Hm.
  rewrite Tq2Q_Hs by (lia || assumption). unfold Sv. ring.
Qed.
Lemma Tin_Sv N v X l m : (0 <= l <= N)%Z -> Tin N (Sv v) X l m = Sv (vadd v X) l m.
Proof. intros Hl. unfold Tin, Sv. rewrite (S_add_wide v X 0 (N + 1) (- N) (N + 1)) by lia. apply zsum_ext. intros a _. apply zsum_ext. intros b _. ring. Qed.
Lemma hpair_ext N (f f' g g' : Z -> Z -> C) : (forall l m, (0 <= l <= N)%Z -> (Z.abs m <= N)%Z -> f l m * g l m = f' l m * g' l m) -> hpair N f g = hpair N f' g'.
Proof. intros H. unfold hpair. apply zsum_ext. intros l Hl. apply zsum_ext. intros m Hm. apply H; lia. Qed.
Definition axis_e (i : nat) : vec := match i with 0%nat => (1, 0, 0)%R | 1%nat => (0, 1, 0)%R | _ => (0, 0, 1)%R end.
Definition Sde (i : nat) (X : vec) (l m : Z) : C := match i with 0%nat => Sdx l m X | 1%nat => Sdy l m X | _ => Sdz l m X end.
Definition set_i (i : nat) (X : vec) (u : R) : vec := let '(x, y, z) := X in match i with 0%nat => (u, y, z) | 1%nat => (x, u, z) | _ => (x, y, u) end.
Definition get_i (i : nat) (X : vec) : R := let '(x, y, z) := X in match i with 0%nat => x | 1%nat => y | _ => z end.
Lemma den_hpair i N v w X t : (1 <= N)%Z -> (0 < vnorm t)%R ->
  hpair N (TG N (Sde i X) (Sv v)) (Tq2Q N (Sv w) t) = RtoC (/ (4 * PI)) * den N (axis_e i) (vadd v X) w t.
Proof.
  intros HN Ht. destruct X as [[x y] z].
  assert (G : cder (fun u => hpair N (Tin N (Sv v) (set_i i (x, y, z) u)) (Tq2Q N (Sv w) t)) (get_i i (x, y, z)) (hpair N (TG N (Sde i (x, y, z)) (Sv v)) (Tq2Q N (Sv w) t))).
  { destruct (hpair_grad N (Sv v) (Tq2Q N (Sv w) t) x y z) as (A1 & A2 & A3). destruct i as [|[|i]]; cbn [set_i get_i Sde]; assumption. }
  assert (Gl : goes (fun u => vadd v (set_i i (x, y, z) u)) (get_i i (x, y, z)) (axis_e i)).
  { apply (goes_line _ _ (vadd v (set_i i (x, y, z) 0))). intros u. destruct v as [[a b] c]. destruct i as [|[|i]]; cbn [set_i axis_e]; unfold vadd, on_line; apply v3; ring. }
  assert (D := cder_en N _ _ _ w t HN Gl). apply (cder_scal (RtoC (/ (4 * PI)))) in D.
  replace (vadd v (set_i i (x, y, z) (get_i i (x, y, z)))) with (vadd v (x, y, z)) in D by (destruct i as [|[|i]]; reflexivity).
  eapply cder_unique; [exact G|]. eapply cder_ext; [|exact D]. intros u. cbv beta. rewrite <- en_hpair by (lia || assumption).
  apply hpair_ext. intros l m Hl Hm. rewrite Tin_Sv by lia. reflexivity.
Qed.
(* turning about z *)
Definition turnf (phi : R) (f : Z -> Z -> C) (l m : Z) : C := (- Ci * RtoC (IZR m) * ez phi m) * f l m.
Definition zspin (phi : R) (v : vec) : vec := let '(a, b, _) := v in (- sin phi * a - cos phi * b, cos phi * a - sin phi * b, 0)%R.
Lemma turn_hpair phi N v w t : (1 <= N)%Z -> (0 < vnorm t)%R ->
  hpair N (turnf phi (Sv v)) (Tq2Q N (Sv w) t) = RtoC (/ (4 * PI)) * den N (zspin phi v) (zrot phi v) w t.
Proof.
  intros HN Ht. assert (D := cder_en N _ _ _ w t HN (goes_turn phi v)). cbv beta in D. apply (cder_scal (RtoC (/ (4 * PI)))) in D.
  symmetry. eapply cder_unique; [exact D|].
  apply (cder_ext (fun u => hpair N (Sv (zrot u v)) (Tq2Q N (Sv w) t))). { intros u. cbv beta. apply en_hpair; [lia|assumption]. }
  unfold hpair. apply (cder_zsum 0 (N + 1) (fun l u => _)). intros l Hl. apply (cder_zsum (- N) (N + 1) (fun m u => _)). intros m Hm. apply cder_scal_r.
  unfold turnf, Sv. eapply cder_ext; [intros u; symmetry; apply S_zrot|]. apply cder_scal_r. unfold ez, cexpi.
  split; cbn [Re Im fst snd Cmult Copp RtoC Ci]; auto_derive; trivial; ring.
Qed.
(* ---- the multipole formulas ---- *)
Definition pairC (B1 B2 : body) (E : vec -> vec -> C) (I : C) : Prop := exists g : vec -> C,
  (forall v, B2 (fun x y z => E v (x, y, z)) (g v)) /\ B1 (fun x y z => g (x, y, z)) I.
Lemma pi4 : RtoC (4 * PI) * RtoC (/ (4 * PI)) = 1.
Proof. rewrite <- RtoC_mult. f_equal. field. apply PI_neq0. Qed.
Lemma pairC_of B1 B2 N (A : (Z -> Z -> C) -> Z -> Z -> C) mu1 mu2 t (E : vec -> vec -> C) : regular B1 -> regular B2 -> (0 <= N)%Z -> smom B2 N mu2 ->
  (forall l m, (0 <= l <= N)%Z -> (Z.abs m <= N)%Z -> B1 (fun x y z => A (Sv (x, y, z)) l m) (A mu1 l m)) ->
  (forall v w, hpair N (A (Sv v)) (Tq2Q N (Sv w) t) = RtoC (/ (4 * PI)) * E v w) ->
  pairC B1 B2 E (RtoC (4 * PI) * hpair N (A mu1) (Tq2Q N mu2 t)).
Proof.
  intros R1 R2 HN H2 H1 HE. exists (fun v => RtoC (4 * PI) * hpair N (A (Sv v)) (Tq2Q N mu2 t)). split.
  - intros v. apply (reg_ext B2 R2 (fun x y z => RtoC (4 * PI) * hpair N (A (Sv v)) (Tq2Q N (Sv (x, y, z)) t))).
    { intros x y z. rewrite HE, Cmult_assoc, pi4. ring. }
    apply (reg_scal B2 R2). apply (int_hpair_r B2 N (A (Sv v)) (fun w => Tq2Q N (Sv w) t) (Tq2Q N mu2 t) R2 HN). intros l m Hl Hm. now apply int_Tq2Q.
  - apply (reg_scal B1 R1). apply (int_hpair B1 N (fun v => A (Sv v)) (A mu1) _ R1 HN H1).
Qed.
Section Arrays.
  Variables (B1 B2 : body) (d1 d2 : R) (q qs Q : marr) (t : vec).
  Hypotheses (R1 : regular B1) (R2 : regular B2) (HL : (0 <= deg q)%Z) (Dq : deg qs = deg q) (Ht : (0 < vnorm t)%R)
    (M1 : filled_moments q d1 B1) (M2 : filled_moments qs d2 B2) (EQ : translate_q2Q qs t = Ok Q).
  Lemma arrays_form (A : (Z -> Z -> C) -> Z -> Z -> C) (E : vec -> vec -> C) :
    (forall B mu l m, regular B -> smom B (deg q) mu -> (0 <= l <= deg q)%Z -> (Z.abs m <= deg q)%Z -> B (fun x y z => A (Sv (x, y, z)) l m) (A mu l m)) ->
    (forall f l m, supp f -> (0 <= l <= deg q)%Z -> (l < Z.abs m)%Z -> A f l m = 0) ->
    (forall (c : C) f g l m, (forall l m, (0 <= l <= deg q)%Z -> (Z.abs m <= deg q)%Z -> f l m = c * g l m) -> (0 <= l <= deg q)%Z -> (Z.abs m <= deg q)%Z -> A f l m = c * A g l m) ->
    (forall v w, hpair (deg q) (A (Sv v)) (Tq2Q (deg q) (Sv w) t) = RtoC (/ (4 * PI)) * E v w) ->
    exists I, pairC B1 B2 E I /\ forall c : R, RtoC (4 * PI * c) * hpair (deg q) (A (hq q)) (hQ Q) = RtoC (c * d1 * d2) * I.
  Proof.
    intros A1 A2 A3 HE. destruct (density_smom q d1 B1 R1 HL M1) as (mu1 & S1 & E1). destruct (density_smom qs d2 B2 R2 ltac:(lia) M2) as (mu2 & S2 & E2).
    rewrite Dq in S2, E2. eexists. split; [apply (pairC_of B1 B2 (deg q) A mu1 mu2 t E R1 R2 HL S2); [intros l m Hl Hm; now apply A1|exact HE]|].
    intros c. rewrite (hpair_ext (deg q) (A (hq q)) (fun l m => RtoC d1 * A mu1 l m) (hQ Q) (fun l m => RtoC d2 * Tq2Q (deg q) mu2 t l m)).
    - rewrite !RtoC_mult. transitivity (RtoC 4 * RtoC PI * RtoC c * (RtoC d1 * RtoC d2 * hpair (deg q) (A mu1) (Tq2Q (deg q) mu2 t))); [|ring]. f_equal.
      unfold hpair. rewrite <- zsum_scal_l. apply zsum_ext. intros l _. rewrite <- zsum_scal_l. apply zsum_ext. intros m _. ring.
    - intros l m Hl Hm. destruct (Z_lt_le_dec l (Z.abs m)) as [h|h].
      + assert (Z0 := A2 (hq q) l m (supp_hq q) Hl h). rewrite <- (A3 (RtoC d1) (hq q) mu1 l m E1 Hl Hm), Z0. ring.
      + rewrite (hQ_q2Q qs t Q) by (assumption || lia || lra). rewrite Dq. rewrite (Tq2Q_ext _ (hq qs) (fun a b => RtoC d2 * mu2 a b)) by (intros; apply E2; lia).
        rewrite Tq2Q_scal. now rewrite (A3 (RtoC d1) (hq q) mu1 l m E1 Hl Hm).
  Qed.
  Lemma energy_form : exists I, pairC B1 B2 (fun v w => en (deg q) v w t) I /\ forall c, work c (deg q) (mom q) (mom Q) = RtoC (c * d1 * d2) * I.
  Proof.
    assert (DQ : deg Q = deg qs). { destruct (translate_q2Q_holds qs t ltac:(lia) ltac:(lra)) as (Q' & E' & D & _). rewrite EQ in E'. injection E' as <-. exact D. }
    destruct (arrays_form (fun f => f) (fun v w => en (deg q) v w t)) as (I & H1 & H2).
    - intros B mu l m _ H Hl Hm. now apply H.
    - intros f l m H Hl Hm. now apply H.
    - intros c f g l m H Hl Hm. now apply H.
    - intros v w. now apply en_hpair.
    - exists I. split; [exact H1|]. intros c. unfold work. rewrite pairing_hpair by lia. apply H2.
  Qed.
  Lemma force_form i x y z c fx fy fz : (1 <= deg q)%Z -> multipole_force (deg q) q Q x y z c = Ok (fx, fy, fz) ->
    exists I, pairC B1 B2 (fun v w => den (deg q) (axis_e i) (vadd v (x, y, z)%R) w t) I /\ match i with 0%nat => fx | 1%nat => fy | _ => fz end = RtoC (c * d1 * d2) * I.
  Proof.
    intros HL1 EF. assert (DQ : deg Q = deg qs). { destruct (translate_q2Q_holds qs t ltac:(lia) ltac:(lra)) as (Q' & E' & D & _). rewrite EQ in E'. injection E' as <-. exact D. }
    destruct (multipole_force_grad q Q x y z c HL ltac:(lia) ltac:(lia)) as (gx & gy & gz & EF' & (G1 & G2 & G3)). rewrite EF in EF'. injection EF' as <- <- <-.
    destruct (hpair_grad (deg q) (hq q) (hQ Q) x y z) as (D1 & D2 & D3).
    apply (cder_scal (RtoC (4 * PI * c))) in D1. apply (cder_scal (RtoC (4 * PI * c))) in D2. apply (cder_scal (RtoC (4 * PI * c))) in D3.
    destruct (arrays_form (TG (deg q) (Sde i (x, y, z)%R)) (fun v w => den (deg q) (axis_e i) (vadd v (x, y, z)%R) w t)) as (I & H1 & H2).
    - intros B mu l m RB H Hl Hm. now apply int_TG.
    - intros f l m H Hl Hm. unfold TG. apply zsum_0. intros a Ha. apply zsum_0. intros b Hb. destruct (Z_lt_le_dec a (Z.abs b)) as [h|h].
      + rewrite H by lia. ring.
      + assert (K : Sde i (x, y, z)%R (l - a) (m - b) = 0). { destruct (Sd_kern0 (l - a) (m - b) (x, y, z)%R ltac:(lia)) as (K1 & K2 & K3). destruct i as [|[|i]]; assumption. } rewrite K. ring.
    - intros k f g l m H Hl Hm. unfold TG. rewrite <- zsum_scal_l. apply zsum_ext. intros a Ha. rewrite <- zsum_scal_l. apply zsum_ext. intros b Hb. rewrite H by lia. ring.
    - intros v w. now apply den_hpair.
    - exists I. split; [exact H1|]. rewrite <- H2. destruct i as [|[|i]]; cbn [Sde]; [exact (cder_unique _ _ _ _ G1 D1)|exact (cder_unique _ _ _ _ G2 D2)|exact (cder_unique _ _ _ _ G3 D3)].
  Qed.
  Lemma torque_form phi c : (1 <= deg q)%Z ->
    exists I, pairC B1 B2 (fun v w => den (deg q) (zspin phi v) (zrot phi v) w t) I /\ KG c * dot (deg q) (wt (ez phi) q) (Qw Q) = RtoC (c * d1 * d2) * I.
  Proof.
    intros HL1. assert (DQ : deg Q = deg qs). { destruct (translate_q2Q_holds qs t ltac:(lia) ltac:(lra)) as (Q' & E' & D & _). rewrite EQ in E'. injection E' as <-. exact D. }
    destruct (arrays_form (turnf phi) (fun v w => den (deg q) (zspin phi v) (zrot phi v) w t)) as (I & H1 & H2).
    - intros B mu l m RB H Hl Hm. unfold turnf. apply (reg_scal B RB). now apply H.
    - intros f l m H Hl Hm. unfold turnf. rewrite H by lia. ring.
    - intros k f g l m H Hl Hm. unfold turnf. rewrite H by lia. ring.
    - intros v w. now apply turn_hpair.
    - exists I. split; [exact H1|]. rewrite <- H2. rewrite (hpair_supp (deg q) (turnf phi (hq q))) by (intros; unfold turnf; rewrite supp_hq by lia; ring).
      unfold dot, KG. replace (-4 * PI * c)%R with (- (4 * PI * c))%R by ring. rewrite RtoC_opp.
      transitivity (RtoC (4 * PI * c) * (- Ci * zsum 0 (deg q + 1) (fun l => zsum (- l) (l + 1) (fun m => mom (wt (ez phi) q) l m * mom (Qw Q) l m)))); [ring|]. f_equal.
      rewrite <- zsum_scal_l. apply zsum_ext. intros l Hl. rewrite <- zsum_scal_l. apply zsum_ext. intros m Hm.
      rewrite wt_mom, Qw_mom. unfold turnf, hq, hQ. rewrite !(proj2 (Z.leb_le _ _)) by lia.
      assert (N0 := nrm_neq0 l m ltac:(lia)). assert (N1 : (2 * IZR l + 1)%R <> 0%R) by (apply odd_neq0; lia). replace (IZR (2 * l + 1)) with (2 * IZR l + 1)%R by (rewrite plus_IZR, mult_IZR; reflexivity).
      assert (N0' : RtoC (nrm l m) <> 0) by (now apply RtoC_neq0). assert (N1' : RtoC (2 * IZR l + 1) <> 0) by (now apply RtoC_neq0).
      rewrite RtoC_mult, !RtoC_div by assumption. field. split; assumption.
  Qed.
End Arrays.
(* ---- uniform truncation errors ---- *)
Definition unif (L : Z) (a b T : R) (N : nat) : R := (sq_err L ((a + b) / T) T N + err_bound L (a + b) T N)%R.
Lemma unif_lim L a b T : (0 <= L)%Z -> (0 <= a)%R -> (0 <= b)%R -> (a + b < T)%R -> is_lim_seq (unif L a b T) 0%R.
Proof.
  intros HL Ha Hb H. replace 0%R with (0 + 0)%R by ring. apply (is_lim_seq_plus' (sq_err L _ _)).
  - apply sq_err_lim; [exact HL| |lra]. split; [apply Rdiv_le_0_compat; lra|]. apply (Rmult_lt_reg_r T); [lra|]. replace ((a + b) / T * T)%R with (a + b)%R by (field; lra). lra.
  - apply err_bound_lim; [exact HL|]. split; lra.
Qed.
Lemma sq_err_mono L th th' r N : (0 <= th <= th')%R -> (0 < r)%R -> (sq_err L th r N <= sq_err L th' r N)%R.
Proof.
  intros Ht Hr. unfold sq_err.
  assert (P1 : (0 <= IZR (Z.of_nat N + 2))%R) by (apply IZR_le; lia). assert (P2 : (0 <= IZR (2 * Z.of_nat N + 3))%R) by (apply IZR_le; lia).
  do 4 (apply Rmult_le_compat_l; [assumption|]).
  assert (P3 : (0 <= IZR (2 * L + 4 * Z.of_nat N + 4) ^ Z.to_nat L)%R).
  { destruct (Z_lt_le_dec L 0) as [h|h]; [replace (Z.to_nat L) with 0%nat by lia; cbn; lra|]. apply pow_le, IZR_le. lia. }
  apply Rmult_le_compat_l; [exact P3|]. unfold Rdiv. apply Rmult_le_compat_r; [apply Rlt_le, Rinv_0_lt_compat, pow_lt, Hr|]. now apply pow_incr.
Qed.
Lemma err_bound_mono L a a' b N : (0 <= L)%Z -> (0 <= a <= a')%R -> (a' < b)%R -> (err_bound L a b N <= err_bound L a' b N)%R.
Proof.
  intros HL Ha Hb. unfold err_bound.
  assert (Q : (0 <= INR (S N) * (IZR (2 * Z.of_nat (S N) + 1) * IZR (2 * L + 2 * Z.of_nat (S N)) ^ Z.to_nat L))%R).
  { apply Rmult_le_pos; [apply pos_INR|]. apply Rmult_le_pos; [apply IZR_le; lia|]. apply pow_le, IZR_le. lia. }
  assert (D : (0 <= a / b <= a' / b)%R). { split; [apply Rdiv_le_0_compat; lra|]. unfold Rdiv. apply Rmult_le_compat_r; [apply Rlt_le, Rinv_0_lt_compat; lra|lra]. }
  assert (P : (0 < (b - a') ^ Z.to_nat (L + 2) <= (b - a) ^ Z.to_nat (L + 2))%R). { split; [apply pow_lt; lra|]. apply pow_incr. lra. }
  apply Rmult_le_compat.
  - apply Rmult_le_pos; [exact Q|]. apply pow_le. lra.
  - apply Rdiv_le_0_compat; lra.
  - apply Rmult_le_compat_l; [exact Q|]. apply pow_incr. exact D.
  - unfold Rdiv. apply Rmult_le_compat; [lra|apply Rlt_le, Rinv_0_lt_compat; lra|lra|]. apply Rinv_le_contravar; lra.
Qed.
Lemma pair_err_unif L p s t a b N : (0 <= L)%Z -> (vnorm p <= a)%R -> (vnorm s <= b)%R -> (a + b < vnorm t)%R -> (pair_err L p s t N <= unif L a b (vnorm t) N)%R.
Proof.
  intros HL Hp Hs H. assert (Np := vnorm_ge0 p). assert (Ns := vnorm_ge0 s). assert (Tr := vnorm_triangle (vopp p) s). rewrite vnorm_opp in Tr. assert (Nv := vnorm_ge0 (vadd (vopp p) s)).
  unfold pair_err, unif. apply Rplus_le_compat.
  - apply sq_err_mono; [|lra]. split; [apply Rdiv_le_0_compat; lra|]. unfold Rdiv. apply Rmult_le_compat_r; [apply Rlt_le, Rinv_0_lt_compat; lra|lra].
  - apply err_bound_mono; [exact HL|lra|lra].
Qed.
(* comparing a double integral with another *)
Lemma minusC B (f g : R -> R -> R -> C) I J : regular B -> B f I -> B g J -> B (fun x y z => f x y z - g x y z) (I - J).
Proof.
  intros RB Hf Hg. apply (reg_ext B RB (fun x y z => f x y z + RtoC (-1) * g x y z)); [intros; rewrite Rm1; ring|]. apply (reg_val B _ (I + RtoC (-1) * J)); [rewrite Rm1; ring|].
  apply (reg_plus B RB); [exact Hf|]. now apply (reg_scal B RB).
Qed.
Lemma pair_close B1 B2 r1 r2 : regular B1 -> regular B2 -> confined B1 r1 -> confined B2 r2 ->
  exists K, (0 <= K)%R /\ forall k J (E : vec -> vec -> C) I e, (0 <= e)%R -> pair_integral B1 r1 B2 r2 k J -> pairC B1 B2 E I ->
  (forall v w, (vnorm v <= r1)%R -> (vnorm w <= r2)%R -> (Cmod (E v w - RtoC (k v w))%C <= e)%R) -> (Cmod (I - RtoC J)%C <= K * e)%R.
Proof.
  intros R1 R2 (K1 & HK1 & C1) (K2 & HK2 & C2). exists (K1 * K2)%R. split; [now apply Rmult_le_pos|].
  intros k J E I e He (f & g & Hf & Hg & HJ) (gE & HgE & HI) H. rewrite Rmult_assoc.
  apply (C1 (fun x y z => gE (x, y, z) - RtoC (g (x, y, z)))); [now apply Rmult_le_pos|now apply minusC|]. intros x y z Hv.
  apply (C2 (fun a b c => E (x, y, z) (a, b, c) - RtoC (f (x, y, z) (a, b, c)))); [exact He|now apply minusC|]. intros a b c Hw. rewrite Hf by assumption. now apply H.
Qed.
Theorem pair_unique B1 B2 r1 r2 k I J : regular B1 -> regular B2 -> confined B1 r1 -> confined B2 r2 -> pair_integral B1 r1 B2 r2 k I -> pair_integral B1 r1 B2 r2 k J -> I = J.
Proof.
  intros R1 R2 C1 C2 HI HJ. destruct (pair_close B1 B2 r1 r2 R1 R2 C1 C2) as (K & HK & H).
  destruct HI as (f & g & Hf & Hg & HI). assert (Q := H k J (fun v w => RtoC (f v w)) (RtoC I) 0%R ltac:(lra) HJ). rewrite Rmult_0_r in Q.
  assert (Z0 : (Cmod (RtoC I - RtoC J)%C <= 0)%R).
  { apply Q. - exists (fun v => RtoC (g v)). now split. - intros v w Hv Hw. rewrite Hf by assumption. replace (RtoC (k v w) - RtoC (k v w)) with (RtoC 0) by ring. rewrite Cmod_0. lra. }
  rewrite <- RtoC_minus, Cmod_R in Z0. assert (P := Rabs_pos (I - J)). assert (Z1 : Rabs (I - J) = 0%R) by lra. apply Rabs_eq_0 in Z1. lra.
Qed.
(* a sequence of kernels that converges uniformly *)
Lemma pair_limit B1 B2 r1 r2 k J (M : R) (u : nat -> R) (E : Z -> vec -> vec -> C) (kk : R) eps : regular B1 -> regular B2 -> confined B1 r1 -> confined B2 r2 -> pair_integral B1 r1 B2 r2 k J ->
  (0 < eps)%R -> (0 <= M)%R -> (forall N, 0 <= u N)%R -> is_lim_seq u 0%R ->
  (forall N v w, (vnorm v <= r1)%R -> (vnorm w <= r2)%R -> (Cmod (E (Z.of_nat (S N)) v w - RtoC (k v w))%C <= M * u N)%R) ->
  exists D, (1 <= D)%Z /\ forall L I, (D <= L)%Z -> pairC B1 B2 (E L) I -> (Cmod (RtoC kk * I - RtoC (kk * J))%C < eps)%R.
Proof.
  intros R1 R2 C1 C2 HJ He HM Hu Lu H. destruct (pair_close B1 B2 r1 r2 R1 R2 C1 C2) as (K & HK & Hc).
  destruct (lim_eps (Rabs kk * (K * M)) u eps) as [N0 HN]; [exact Lu|exact He|].
  exists (Z.of_nat (S N0)). split; [lia|]. intros L I HL HI. set (N := Z.to_nat (L - 1)). assert (EL : L = Z.of_nat (S N)) by lia.
  assert (Q := Hc k J (E L) I (M * u N)%R ltac:(apply Rmult_le_pos; [exact HM|apply Hu]) HJ HI). rewrite EL in Q. specialize (Q (H N)).
  rewrite RtoC_mult. replace (RtoC kk * I - RtoC kk * RtoC J) with (RtoC kk * (I - RtoC J)) by ring. rewrite Cmod_mult, Cmod_R.
  eapply Rle_lt_trans; [|apply (HN N); lia]. replace (Rabs kk * (K * M) * u N)%R with (Rabs kk * (K * (M * u N)))%R by ring.
  apply Rmult_le_compat_l; [apply Rabs_pos|exact Q].
Qed.
