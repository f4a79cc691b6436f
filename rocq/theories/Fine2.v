(* Towards C78: what the relation [gridded] means for Lipschitz functions. *)
From Coq Require Import Reals Lra Lia List ZArith.
From Coquelicot Require Import Coquelicot.
From Verif Require Import Glib GlibSpec GlibProofs GlibProofs2 NewtonSpec Newton MomentSpec Pg2MultiProofs Addition Irreg2 SolidSpec ShapeSpec ShapesProofs QlmProofs QlmProofs3 VInt LipInt BodyInt BodySpec GlibShapes PointSpec GlibShapesProofs Props_GlibShapes Refine2 Refine3 Refine4 Refine6 Props_Shapes2 Fine FineSpec.
From Verif Require Import Cplx.
From Verif Require Import Refine.
Import ListNotations.
Open Scope R_scope.

Definition close_to (pts : list pt) (D : body) (r M d : R) : Prop :=
  regular D /\ 0 <= r /\ 0 <= M /\ 0 <= d /\ lsr (fun p => Rabs (pm p)) pts <= M /\ (forall p, In p pts -> vnorm (pp p) <= r) /\
  exists J : (vec -> R) -> R,
    (forall K f, 0 <= K -> lip K f -> D (fun x y z => RtoC (f (x, y, z))) (RtoC (J f)) /\ Rabs (weighed f pts - J f) <= K * d) /\
    (forall K K' f g e, 0 <= K -> 0 <= K' -> lip K f -> lip K' g -> (forall v, vnorm v <= r -> Rabs (f v - g v) <= e) -> Rabs (J f - J g) <= M * e).

Lemma vnorm_sum x y z : vnorm (x, y, z) <= Rabs x + Rabs y + Rabs z.
Proof.
  rewrite vnorm_xyz. assert (A := Rabs_pos x). assert (B := Rabs_pos y). assert (D := Rabs_pos z).
  apply Rsqr_incr_0_var; [|lra]. unfold Rsqr at 1. rewrite sqrt_sqrt by nra. unfold Rsqr. rewrite <- (pow2_abs x), <- (pow2_abs y), <- (pow2_abs z). nra.
Qed.
Lemma lip_lip3 K f : 0 <= K -> lip K f -> lip3 K (fun x y z => f (x, y, z)).
Proof. intros HK H x y z x' y' z'. eapply Rle_trans; [apply H|]. apply Rmult_le_compat_l; [exact HK|]. unfold vsub. apply vnorm_sum. Qed.
Lemma in1_const c a1 b1 a2 b2 a3 b3 : in1 (fun _ _ _ => c) a1 b1 a2 b2 a3 b3 = (b1 - a1) * ((b2 - a2) * ((b3 - a3) * c)).
Proof.
  assert (E : forall a b k, RInt (fun _ : R => k) a b = (b - a) * k) by (intros; rewrite RInt_const; reflexivity).
  unfold in1, in2, in3. rewrite !E. reflexivity.
Qed.
Lemma abs_sum_equal (l : list pt) k : (forall p, In p l -> pm p = k) -> lsr (fun p => Rabs (pm p)) l = INR (length l) * Rabs k.
Proof.
  intros H. induction l as [|p l IH]; [unfold lsr; cbn; ring|]. change (Rabs (pm p) + lsr (fun p => Rabs (pm p)) l = INR (Datatypes.S (length l)) * Rabs k).
  rewrite IH by (intros q Hq; apply H; now right). rewrite (H p) by now left. rewrite S_INR. ring.
Qed.
Lemma brick_close mass x y z nx nz pts r : 0 < x -> 0 < y -> 0 < z -> (0 < nx)%nat -> (0 < nz)%nat -> 0 <= r -> (x / 2) ^ 2 + (y / 2) ^ 2 + (z / 2) ^ 2 <= r ^ 2 ->
  fills mass (brick (0, 0, 0) x y z) (brick_span (0, 0, 0) x y z) nx nx nz pts ->
  close_to pts (of_mass mass (box z x y)) r (Rabs mass) (Rabs mass * ((x / INR nx + y / INR nx + z / INR nz) / 4)).
Proof.
  intros Hx Hy Hz N1 N3 Hr Hn (HI & ND & HM & _).
  assert (P1 := lt_0_INR _ N1). assert (P3 := lt_0_INR _ N3). assert (HV : 0 < x * y * z) by (repeat apply Rmult_lt_0_compat; assumption).
  assert (D1 : - x / 2 < x / 2) by lra. assert (D2 : - y / 2 < y / 2) by lra. assert (D3 : - z / 2 < z / 2) by lra.
  assert (IN : forall v, In v (map pp pts) -> brick (0, 0, 0) x y z v) by (intros v Hv; now apply HI in Hv).
  assert (BALL : forall a b c, Rabs a <= x / 2 -> Rabs b <= y / 2 -> Rabs c <= z / 2 -> vnorm (a, b, c) <= r).
  { intros a b c Q1 Q2 Q3. apply vnorm_le; [exact Hr|]. apply sq_le in Q1; [|lra]. apply sq_le in Q2; [|lra]. apply sq_le in Q3; [|lra]. lra. }
  assert (LAT : forall F : vec -> R, x / INR nx * (y / INR nx) * (z / INR nz) * lsr F (map pp pts) =
    rs nx (fun i => cw (- x / 2) (x / 2) nx * rs nx (fun j => cw (- y / 2) (y / 2) nx * rs nz (fun k => cw (- z / 2) (z / 2) nz * F (mid (- x / 2) (x / 2) nx i, mid (- y / 2) (y / 2) nx j, mid (- z / 2) (z / 2) nz k))))).
  { intros F. assert (G := fill_sum (fun u v w => (u, v, w)) (fun v => fst (fst v)) (fun v => snd (fst v)) (fun v => snd v) (- x / 2) (x / 2) (- y / 2) (y / 2) (- z / 2) (z / 2) nx nx nz).
    specialize (G (fun v => match v with (a, b, c) => eq_refl end) (fun _ _ _ => eq_refl) (fun _ _ _ => eq_refl) (fun _ _ _ => eq_refl) D1 D2 D3 N1 N1 N3 (fun _ => true) (fun _ _ => true) (fun _ _ _ => true) (map pp pts) F ND).
    replace (x / INR nx) with (cw (- x / 2) (x / 2) nx) by (unfold cw; field; lra). replace (y / INR nx) with (cw (- y / 2) (y / 2) nx) by (unfold cw; field; lra). replace (z / INR nz) with (cw (- z / 2) (z / 2) nz) by (unfold cw; field; lra).
    rewrite G.
    - unfold lattice_sum. apply rs_ext. intros i _. cbn [chi]. rewrite Rmult_1_l. f_equal. apply rs_ext. intros j _. rewrite Rmult_1_l. f_equal. apply rs_ext. intros k _. rewrite Rmult_1_l. reflexivity.
    - intros u v w. rewrite HI. unfold on_lattice, brick_span. cbn [s_x0 s_x1 s_y0 s_y1 s_z0 s_z1].
      replace (0 - x / 2) with (- x / 2) by field. replace (0 - y / 2) with (- y / 2) by field. replace (0 - z / 2) with (- z / 2) by field. rewrite !Rplus_0_l.
      split; [intros (A & _); now repeat split|]. intros (A & _). split; [exact A|]. destruct A as (A & B & D). apply centre_range in A, B, D; try assumption. unfold brick. rewrite !Rminus_0_r, !Rabs_iff. lra. }
  assert (LEN : x / INR nx * (y / INR nx) * (z / INR nz) * INR (length pts) = x * y * z).
  { assert (E := LAT (fun _ => 1)). assert (S1 : lsr (fun _ : vec => 1) (map pp pts) = INR (length pts)). { rewrite <- (map_length pp pts). clear. induction (map pp pts) as [|v l IH]; [reflexivity|]. change (1 + lsr (fun _ : vec => 1) l = INR (Datatypes.S (length l))). rewrite IH, S_INR. ring. }
    rewrite S1 in E. rewrite E. rewrite !rs_const. unfold cw. field. lra. }
  assert (PL : 0 < INR (length pts)). { apply Rnot_le_lt. intros K. assert (Q := pos_INR (length pts)). assert (Z0 : INR (length pts) = 0) by lra. rewrite Z0, Rmult_0_r in LEN. lra. }
  split; [apply regular_of_mass, regular_box|]. split; [exact Hr|]. split; [apply Rabs_pos|]. split.
  { apply Rmult_le_pos; [apply Rabs_pos|]. assert (0 < x / INR nx) by (apply Rdiv_lt_0_compat; lra). assert (0 < y / INR nx) by (apply Rdiv_lt_0_compat; lra). assert (0 < z / INR nz) by (apply Rdiv_lt_0_compat; lra). lra. }
  split. { rewrite (abs_sum_equal pts _ HM). unfold Rdiv. rewrite Rabs_mult, (Rabs_pos_eq (/ INR (length pts))) by (left; now apply Rinv_0_lt_compat). right. field. lra. }
  split. { intros p Hp. assert (B := IN (pp p) (in_map pp _ _ Hp)). destruct (pp p) as [[a b] c]. unfold brick in B. rewrite !Rminus_0_r in B. destruct B as (Q1 & Q2 & Q3). now apply BALL. }
  assert (VB : box z x y (fun _ _ _ => RtoC 1) (RtoC (x * y * z))).
  { assert (L0 : lip3 0 (fun _ _ _ : R => 1)) by (intros ? ? ? ? ? ?; rewrite Rabs_diag; lra). assert (G := in1_int3 0 (fun _ _ _ => 1) (- x / 2) (x / 2) (- y / 2) (y / 2) (- z / 2) (z / 2) L0 D2 D3).
    rewrite in1_const in G. replace ((x / 2 - - x / 2) * ((y / 2 - - y / 2) * ((z / 2 - - z / 2) * 1))) with (x * y * z) in G by field. exact G. }
  exists (fun f => mass / (x * y * z) * in1 (fun a b c => f (a, b, c)) (- x / 2) (x / 2) (- y / 2) (y / 2) (- z / 2) (z / 2)). split.
  - intros K f HK Hf. assert (L := lip_lip3 K f HK Hf). split.
    + exists (x * y * z), (RtoC (in1 (fun a b c => f (a, b, c)) (- x / 2) (x / 2) (- y / 2) (y / 2) (- z / 2) (z / 2))). split; [lra|]. split; [exact VB|]. split; [|now rewrite RtoC_mult].
      exact (in1_int3 K _ _ _ _ _ _ _ L D2 D3).
    + assert (G := grid_err K _ _ _ _ _ _ _ nx nx nz HK L D1 D2 D3 N1 N1 N3). cbv beta in G. rewrite <- (LAT f) in G.
      replace (cw (- x / 2) (x / 2) nx) with (x / INR nx) in G by (unfold cw; field; lra). replace (cw (- y / 2) (y / 2) nx) with (y / INR nx) in G by (unfold cw; field; lra). replace (cw (- z / 2) (z / 2) nz) with (z / INR nz) in G by (unfold cw; field; lra).
      replace ((x / 2 - - x / 2) * (y / 2 - - y / 2) * (z / 2 - - z / 2)) with (x * y * z) in G by field.
      assert (E : weighed f pts = mass / (x * y * z) * (x / INR nx * (y / INR nx) * (z / INR nz) * lsr f (map pp pts))).
      { rewrite <- LEN. unfold weighed. rewrite lsr_map. transitivity (mass / INR (length pts) * lsr (fun p => f (pp p)) pts).
        - rewrite <- Newton.lsr_scal. apply Newton.lsr_ext. intros p Hp. now rewrite HM.
        - field. repeat split; lra. }
      rewrite E, <- Rmult_minus_distr_l, Rabs_mult. unfold Rdiv at 1. rewrite Rabs_mult, (Rabs_pos_eq (/ (x * y * z))) by (left; now apply Rinv_0_lt_compat).
      eapply Rle_trans; [apply Rmult_le_compat_l; [apply Rmult_le_pos; [apply Rabs_pos|left; now apply Rinv_0_lt_compat]|exact G]|]. right. field. repeat split; lra.
  - intros K K' f g e HK HK' Hf Hg H. rewrite <- Rmult_minus_distr_l, Rabs_mult. unfold Rdiv. rewrite Rabs_mult, (Rabs_pos_eq (/ (x * y * z))) by (left; now apply Rinv_0_lt_compat).
    assert (G := in1_dist K K' _ _ (- x / 2) (x / 2) (- y / 2) (y / 2) (- z / 2) (z / 2) e HK HK' (lip_lip3 K f HK Hf) (lip_lip3 K' g HK' Hg) D1 D2 D3).
    cbv beta in G. assert (G' := G ltac:(intros a b c Ha Hb Hc; apply H, BALL; apply Rabs_le; lra)).
    eapply Rle_trans; [apply Rmult_le_compat_l; [apply Rmult_le_pos; [apply Rabs_pos|left; now apply Rinv_0_lt_compat]|exact G']|]. right. field. repeat split; lra.
Qed.

Lemma weighed_moved f M pts : weighed f (Refine3.moved M pts) = weighed (fun v => f (M v)) pts.
Proof. unfold weighed, Refine3.moved. now rewrite lsr_map. Qed.
Lemma weighed_app f p q : weighed f (p ++ q) = weighed f p + weighed f q.
Proof. apply lsr_app. Qed.
Lemma carried_close pts D r M d T r' : (forall v w, vnorm (vsub (T v) (T w)) = vnorm (vsub v w)) -> (forall v, vnorm v <= r -> vnorm (T v) <= r') -> 0 <= r' ->
  close_to pts D r M d -> close_to (Refine3.moved T pts) (carried T D) r' M d.
Proof.
  intros HT HB Hr' (RD & Hr & HM & Hd & HS & HP & J & J1 & J2).
  assert (LT : forall K f, lip K f -> lip K (fun v => f (T v))) by (intros K f Hf v w; rewrite <- HT; apply Hf).
  split; [now apply (regular_mapped T)|]. split; [exact Hr'|]. split; [exact HM|]. split; [exact Hd|]. split; [unfold Refine3.moved; rewrite lsr_map; exact HS|]. split.
  - intros p Hp. unfold Refine3.moved in Hp. apply in_map_iff in Hp. destruct Hp as (q & <- & Hq). cbn [pp]. now apply HB, HP.
  - exists (fun f => J (fun v => f (T v))). split.
    + intros K f HK Hf. destruct (J1 K (fun v => f (T v)) HK (LT K f Hf)) as (A & B). rewrite weighed_moved. split; [|exact B].
      unfold carried. eapply (reg_ext _ RD); [|exact A]. intros a b c. cbv beta. destruct (T (a, b, c)) as [[a' b'] c']. reflexivity.
    + intros K K' f g e HK HK' Hf Hg H. apply (J2 K K'); auto.
Qed.
Lemma together_close p1 D1 M1 d1 p2 D2 M2 d2 r : close_to p1 D1 r M1 d1 -> close_to p2 D2 r M2 d2 -> close_to (p1 ++ p2) (together D1 D2) r (M1 + M2) (d1 + d2).
Proof.
  intros (R1 & Hr & HM1 & Hd1 & S1 & P1 & J & J1 & J2) (R2 & _ & HM2 & Hd2 & S2 & P2 & J' & J1' & J2').
  split; [now apply regular_together|]. split; [exact Hr|]. split; [lra|]. split; [lra|]. split; [rewrite lsr_app; lra|]. split.
  - intros p Hp. apply in_app_or in Hp. destruct Hp; auto.
  - exists (fun f => J f + J' f). split.
    + intros K f HK Hf. destruct (J1 K f HK Hf) as (A & B). destruct (J1' K f HK Hf) as (A' & B'). split.
      * exists (RtoC (J f)), (RtoC (J' f)). split; [exact A|]. split; [exact A'|]. now rewrite RtoC_plus.
      * rewrite weighed_app. replace (weighed f p1 + weighed f p2 - (J f + J' f)) with ((weighed f p1 - J f) + (weighed f p2 - J' f)) by ring. eapply Rle_trans; [apply Rabs_triang|lra].
    + intros K K' f g e HK HK' Hf Hg H. assert (A := J2 K K' f g e HK HK' Hf Hg H). assert (B := J2' K K' f g e HK HK' Hf Hg H).
      replace (J f + J' f - (J g + J' g)) with ((J f - J g) + (J' f - J' g)) by ring. eapply Rle_trans; [apply Rabs_triang|lra].
Qed.
Lemma weighed_diff f g e pts : (forall p, In p pts -> Rabs (f (pp p) - g (pp p)) <= e) -> Rabs (weighed f pts - weighed g pts) <= lsr (fun p => Rabs (pm p)) pts * e.
Proof.
  intros H. induction pts as [|p l IH]; [unfold weighed, lsr; cbn; rewrite Rabs_diag; lra|].
  change (weighed f (p :: l)) with (pm p * f (pp p) + weighed f l). change (weighed g (p :: l)) with (pm p * g (pp p) + weighed g l). change (lsr (fun p => Rabs (pm p)) (p :: l)) with (Rabs (pm p) + lsr (fun p => Rabs (pm p)) l).
  assert (A := IH (fun q Hq => H q (or_intror Hq))). assert (B := H p (or_introl eq_refl)). replace (pm p * f (pp p) + weighed f l - (pm p * g (pp p) + weighed g l)) with (pm p * (f (pp p) - g (pp p)) + (weighed f l - weighed g l)) by ring.
  eapply Rle_trans; [apply Rabs_triang|]. rewrite Rabs_mult. assert (Q := Rmult_le_compat_l (Rabs (pm p)) _ _ (Rabs_pos _) B). lra.
Qed.
Lemma abs_sum_pos (l : list pt) : 0 <= lsr (fun p => Rabs (pm p)) l.
Proof. unfold lsr. induction l as [|p l IH]; cbn; [lra|assert (Q := Rabs_pos (pm p)); lra]. Qed.
Lemma points_close P r : 0 <= r -> (forall p, In p P -> vnorm (pp p) <= r) -> close_to P (point_masses P) r (lsr (fun p => Rabs (pm p)) P) 0.
Proof.
  intros Hr HP. split; [apply regular_points|]. split; [exact Hr|]. split; [apply abs_sum_pos|]. split; [lra|]. split; [lra|]. split; [exact HP|]. exists (fun f => weighed f P). split.
  - intros K f HK Hf. split; [|rewrite Rabs_diag; lra]. unfold point_masses, weighed. rewrite <- lsum_RtoC. unfold lsum. clear. induction P as [|[m [[a b] c]] l IH]; [reflexivity|]. cbn [fold_right pm pp]. rewrite IH. now rewrite RtoC_mult.
  - intros K K' f g e _ _ _ _ H. apply weighed_diff. intros p Hp. now apply H, HP.
Qed.
Theorem gridded_sound pts D r M d : gridded pts D r M d -> close_to pts D r M d.
Proof.
  induction 1 as [mass x y z nx nz pts r Hx Hy Hz N1 N3 Hr Hn E|P r Hr HP|pts D r M d t q H IH E|pts D r M d axis theta rot q H IH Hax HR E|p1 D1 M1 d1 p2 D2 M2 d2 r H1 IH1 H2 IH2|pts D r M d r' Hle H IH].
  - destruct (C40_rectangle_equal_counts mass x y z nx nz Hx Hy Hz N1 N3) as (pts' & E' & HF). rewrite E in E'. injection E' as <-. now apply brick_close.
  - now apply points_close.
  - cbn in E. injection E as <-. assert (Hr := proj1 (proj2 IH)). assert (G := carried_close pts D r M d (fun v => vadd v t) (r + vnorm t)).
    assert (0 <= vnorm t) by (destruct t as [[? ?] ?]; rewrite vnorm_xyz; apply sqrt_pos). apply G; [| |lra|exact IH].
    + intros [[a b] c] [[a' b'] c']. destruct t as [[u v] w]. f_equal. unfold vadd, vsub. apply v3; ring.
    + intros v Hv. assert (Q := vnorm_triangle v t). lra.
  - assert (EM := is_rotation_unique axis theta rot (axis_rot axis theta) Hax HR (axis_rot_is_rotation axis theta Hax)).
    rewrite rotate_array_spec in E by exact Hax. injection E as <-. assert (Hr := proj1 (proj2 IH)).
    replace (map (fun p => mkpt (pm p) (axis_rot axis theta (pp p))) pts) with (Refine3.moved rot pts) by (unfold Refine3.moved; apply map_ext; intros p; now rewrite EM).
    apply (carried_close pts D r); [| |exact Hr|exact IH].
    + intros v w. rewrite <- (rot_vnorm axis theta rot (vsub v w) HR). f_equal. assert (S : forall a b, vsub a b = vadd a (vscal (-1) b)) by (intros [[? ?] ?] [[? ?] ?]; unfold vsub, vadd, vscal; apply v3; ring).
      rewrite !S, (rot_add _ _ _ HR), (rot_scal _ _ _ HR). reflexivity.
    + intros v Hv. now rewrite (rot_vnorm axis theta rot v HR).
  - now apply together_close.
  - destruct IH as (RD & Hr & HM & Hd & HS & HP & J & J1 & J2). split; [exact RD|]. split; [lra|]. split; [exact HM|]. split; [exact Hd|]. split; [exact HS|]. split; [intros p Hp; specialize (HP p Hp); lra|].
    exists J. split; [exact J1|]. intros K K' f g e HK HK' Hf Hg H'. apply (J2 K K'); auto. intros v Hv. apply H'. lra.
Qed.

(* ---- two arrays ---- *)
Lemma weighed_weighed k pts qts : lsr (fun p => lsr (fun s => pm p * pm s * k (pp p) (pp s)) qts) pts = weighed (fun v => weighed (k v) qts) pts.
Proof. unfold weighed. apply Newton.lsr_ext. intros p _. rewrite <- Newton.lsr_scal. apply Newton.lsr_ext. intros s _. ring. Qed.
Theorem pair_close pts D1 r1 M1 d1 qts D2 r2 M2 d2 (k F : vec -> vec -> R) K1 K2 : close_to pts D1 r1 M1 d1 -> close_to qts D2 r2 M2 d2 -> 0 <= K1 -> 0 <= K2 ->
  (forall v, lip K2 (F v)) -> (forall w, lip K1 (fun v => F v w)) -> (forall v w, vnorm v <= r1 -> vnorm w <= r2 -> F v w = k v w) ->
  exists J, pair_integral D1 r1 D2 r2 k J /\ Rabs (lsr (fun p => lsr (fun s => pm p * pm s * k (pp p) (pp s)) qts) pts - J) <= M1 * K2 * d2 + M2 * K1 * d1.
Proof.
  intros (R1 & Hr1 & HM1 & Hd1 & S1 & P1 & J & J1 & J2) (R2 & Hr2 & HM2 & Hd2 & S2 & P2 & J' & J1' & J2') HK1 HK2 L2 L1 E.
  set (g := fun v => J' (F v)).
  assert (Lg : lip (M2 * K1) g). { intros v w. unfold g. rewrite Rmult_assoc. apply (J2' K2 K2); auto. intros u _. apply (L1 u). }
  assert (PK : 0 <= M2 * K1) by now apply Rmult_le_pos. destruct (J1 (M2 * K1) g PK Lg) as (A & B).
  exists (J g). split.
  - exists F, g. split; [exact E|]. split; [|exact A]. intros v. exact (proj1 (J1' K2 (F v) HK2 (L2 v))).
  - rewrite weighed_weighed. apply Rle_trans with (M1 * (K2 * d2) + M2 * K1 * d1); [|right; ring]. apply (via _ (weighed g pts)); [|exact B].
    eapply Rle_trans; [apply (weighed_diff _ _ (K2 * d2))|apply Rmult_le_compat_r; [now apply Rmult_le_pos|exact S1]].
    intros p Hp. replace (weighed (k (pp p)) qts) with (weighed (F (pp p)) qts). { exact (proj2 (J1' K2 (F (pp p)) HK2 (L2 (pp p)))). }
    unfold weighed. apply Newton.lsr_ext. intros s Hs. rewrite E; auto.
Qed.
