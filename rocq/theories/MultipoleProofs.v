(* Proofs about the model of multipoleLib.py: force_basis and multipole_force *)
From Verif Require Export MultipoleLib CDeriv TransRecProofs.
From Verif Require Import Cplx.
Open Scope C_scope.

Lemma S_rec l m x y z :
  RtoC (IZR (l ^ 2 - m ^ 2)) * S_ l m (x, y, z) =
  RtoC (IZR (2 * l - 1)) * RtoC z * S_ (l - 1) m (x, y, z) - RtoC (x ^ 2 + y ^ 2 + z ^ 2) * S_ (l - 2) m (x, y, z).
Proof.
  unfold S_, solid. replace (l ^ 2 - m ^ 2)%Z with ((l + m) * (l - m))%Z by ring. rewrite tri_rec_l.
  f_equal. f_equal. f_equal.
  replace (x ^ 2 + y ^ 2 + z ^ 2)%R with (z * z + (x * x + y * y))%R by ring. rewrite !RtoC_plus, !RtoC_mult. assert (E := Ci_sqr).
  transitivity (RtoC z * RtoC z + (RtoC x * RtoC x - (Ci * Ci) * (RtoC y * RtoC y))); [field|rewrite E; ring].
Qed.
Lemma S_sect l x y z : (1 <= l)%Z -> RtoC (IZR (2 * l)) * S_ l l (x, y, z) = - ((RtoC x - Ci * RtoC y) * S_ (l - 1) (l - 1) (x, y, z)).
Proof.
  intros H. unfold S_, solid. rewrite !tri_top by lia. rewrite mult_IZR, RtoC_mult.
  rewrite <- Cmult_assoc, dp_rec. field.
Qed.

Lemma S_grad3 l m x y z : cder (fun t => S_ l m (t, y, z)) x (Sdx l m (x, y, z)) /\ cder (fun t => S_ l m (x, t, z)) y (Sdy l m (x, y, z)) /\
  cder (fun t => S_ l m (x, y, t)) z (Sdz l m (x, y, z)).
Proof. exact (S_grad l m (x, y, z)). Qed.
Lemma S_dx l m x y z : cder (fun t => S_ l m (t, y, z)) x (Sdx l m (x, y, z)). Proof. exact (proj1 (S_grad3 l m x y z)). Qed.
Lemma S_dy l m x y z : cder (fun t => S_ l m (x, t, z)) y (Sdy l m (x, y, z)). Proof. exact (proj1 (proj2 (S_grad3 l m x y z))). Qed.
Lemma S_dz l m x y z : cder (fun t => S_ l m (x, y, t)) z (Sdz l m (x, y, z)). Proof. exact (proj2 (proj2 (S_grad3 l m x y z))). Qed.
Opaque S_ Sdx Sdy Sdz.
Lemma cder_sq c x : cder (fun t => RtoC (t ^ 2 + c)) x (RtoC (2 * x)).
Proof. split; cbn; auto_derive; auto; ring. Qed.
Lemma Sdx_rec l m x y z :
  RtoC (IZR (l ^ 2 - m ^ 2)) * Sdx l m (x, y, z) =
  RtoC (IZR (2 * l - 1)) * RtoC z * Sdx (l - 1) m (x, y, z) - (RtoC (2 * x) * S_ (l - 2) m (x, y, z) + RtoC (x ^ 2 + y ^ 2 + z ^ 2) * Sdx (l - 2) m (x, y, z)).
Proof.
  eapply cder_unique; [apply cder_scal; apply S_dx|].
  eapply cder_ext; [intros t; symmetry; apply S_rec|]. cbv beta.
  apply cder_minus; [apply cder_scal, S_dx|]. apply (cder_mult (fun t => RtoC (t ^ 2 + y ^ 2 + z ^ 2)) (fun t => S_ (l - 2) m (t, y, z))); [|apply S_dx].
  eapply cder_ext; [|apply (cder_sq (y ^ 2 + z ^ 2))]. intros; cbv beta. f_equal. ring.
Qed.
Lemma Sdy_rec l m x y z :
  RtoC (IZR (l ^ 2 - m ^ 2)) * Sdy l m (x, y, z) =
  RtoC (IZR (2 * l - 1)) * RtoC z * Sdy (l - 1) m (x, y, z) - (RtoC (2 * y) * S_ (l - 2) m (x, y, z) + RtoC (x ^ 2 + y ^ 2 + z ^ 2) * Sdy (l - 2) m (x, y, z)).
Proof.
  eapply cder_unique; [apply cder_scal; apply S_dy|].
  eapply cder_ext; [intros t; symmetry; apply S_rec|]. cbv beta.
  apply cder_minus; [apply cder_scal, S_dy|]. apply (cder_mult (fun t => RtoC (x ^ 2 + t ^ 2 + z ^ 2)) (fun t => S_ (l - 2) m (x, t, z))); [|apply S_dy].
  eapply cder_ext; [|apply (cder_sq (x ^ 2 + z ^ 2))]. intros; cbv beta. f_equal. ring.
Qed.
Lemma Sdz_rec l m x y z :
  RtoC (IZR (l ^ 2 - m ^ 2)) * Sdz l m (x, y, z) =
  RtoC (IZR (2 * l - 1)) * (S_ (l - 1) m (x, y, z) + RtoC z * Sdz (l - 1) m (x, y, z)) - (RtoC (2 * z) * S_ (l - 2) m (x, y, z) + RtoC (x ^ 2 + y ^ 2 + z ^ 2) * Sdz (l - 2) m (x, y, z)).
Proof.
  eapply cder_unique; [apply cder_scal; apply S_dz|].
  eapply cder_ext; [intros t; symmetry; apply S_rec|]. cbv beta.
  apply cder_minus.
  - apply (cder_ext (fun t => RtoC (IZR (2 * l - 1)) * (RtoC t * S_ (l - 1) m (x, y, t)))); [intros; ring|]. apply cder_scal.
    eapply cder_val; [|apply cder_mult; [apply cder_id|apply S_dz]]. cbv beta. ring.
  - apply (cder_mult (fun t => RtoC (x ^ 2 + y ^ 2 + t ^ 2)) (fun t => S_ (l - 2) m (x, y, t))); [|apply S_dz].
    eapply cder_ext; [|apply (cder_sq (x ^ 2 + y ^ 2))]. intros; cbv beta. f_equal. ring.
Qed.
Lemma Sdx_sect l x y z : (1 <= l)%Z -> RtoC (IZR (2 * l)) * Sdx l l (x, y, z) =
  - (S_ (l - 1) (l - 1) (x, y, z) + Sdx (l - 1) (l - 1) (x, y, z) * (RtoC x - Ci * RtoC y)).
Proof.
  intros H. eapply cder_unique; [apply cder_scal; apply S_dx|].
  eapply cder_ext; [intros t; symmetry; now apply S_sect|]. cbv beta. apply cder_opp.
  eapply cder_val; [|apply cder_mult; [|apply S_dx]].
  2:{ apply cder_minus; [apply cder_id|apply cder_const]. } cbv beta. ring.
Qed.
Lemma Sdy_sect l x y z : (1 <= l)%Z -> RtoC (IZR (2 * l)) * Sdy l l (x, y, z) =
  Ci * S_ (l - 1) (l - 1) (x, y, z) - Sdy (l - 1) (l - 1) (x, y, z) * (RtoC x - Ci * RtoC y).
Proof.
  intros H. eapply cder_unique; [apply cder_scal; apply S_dy|].
  eapply cder_ext; [intros t; symmetry; now apply S_sect|]. cbv beta.
  eapply cder_val; [|apply cder_opp; apply cder_mult; [|apply S_dy]].
  2:{ apply cder_minus; [apply cder_const|apply cder_scal, cder_id]. } cbv beta. ring.
Qed.
Lemma Sdz_sect l x y z : (1 <= l)%Z -> RtoC (IZR (2 * l)) * Sdz l l (x, y, z) =
  - (Sdz (l - 1) (l - 1) (x, y, z) * (RtoC x - Ci * RtoC y)).
Proof.
  intros H. eapply cder_unique; [apply cder_scal; apply S_dz|].
  eapply cder_ext; [intros t; symmetry; now apply S_sect|]. cbv beta. apply cder_opp.
  eapply cder_val; [|apply cder_scal, S_dz]. cbv beta. ring.
Qed.
Transparent S_ Sdx Sdy Sdz.
Lemma Sdx_symm l m v : Sdx l (- m) v = sgnC m * Cconj (Sdx l m v).
Proof.
  unfold Sdx. replace (- m + 1)%Z with (- (m - 1))%Z by ring. replace (- m - 1)%Z with (- (m + 1))%Z by ring.
  rewrite !S_symm, sgnC_pred, sgnC_succ, Cconj_div, Cconj_minus, Cconj_RtoC. field.
Qed.
Lemma Sdy_symm l m v : Sdy l (- m) v = sgnC m * Cconj (Sdy l m v).
Proof.
  unfold Sdy. replace (- m + 1)%Z with (- (m - 1))%Z by ring. replace (- m - 1)%Z with (- (m + 1))%Z by ring.
  rewrite !S_symm, sgnC_pred, sgnC_succ, Cconj_mult, Cconj_div, Cconj_plus, Cconj_RtoC, Cconj_Ci. field.
Qed.
Lemma Sdz_symm l m v : Sdz l (- m) v = sgnC m * Cconj (Sdz l m v).
Proof. unfold Sdz. apply S_symm. Qed.
Lemma Sd_zero l m v : (l < Z.abs m)%Z -> Sdx l m v = 0 /\ Sdy l m v = 0 /\ Sdz l m v = 0.
Proof. intros H. unfold Sdx, Sdy, Sdz. rewrite !S_zero by lia. repeat split; field. Qed.
Lemma Sd_deg0 m v : Sdx 0 m v = 0 /\ Sdy 0 m v = 0 /\ Sdz 0 m v = 0.
Proof. unfold Sdx, Sdy, Sdz. rewrite !S_neg by lia. repeat split; field. Qed.

(* ---- arrays covered on a domain ---- *)
Definition cov (L : Z) (D : Z -> Z -> bool) (q : marr) (f : Z -> Z -> C) : Prop :=
  deg q = L /\ forall a b, at_ q a (L + b)%Z = if D a b then f a b else 0.
Lemma cov_upd L D q f i j (v : C) : cov L D q f -> v = f i j ->
  cov L (fun a b => D a b || ((a =? i) && (b =? j)))%bool%Z (upd q i (L + j) v) f.
Proof.
  intros [Hd H] ->. split; [exact Hd|]. intros a b. rewrite upd_spec.
  replace (L + b =? L + j)%Z with (b =? j)%Z by (destruct (Z.eqb_spec b j), (Z.eqb_spec (L + b) (L + j)); lia || reflexivity).
  destruct (Z.eqb_spec a i), (Z.eqb_spec b j); cbn [andb]; rewrite ?Bool.orb_true_r, ?Bool.orb_false_r; try apply H. now subst.
Qed.
Lemma cov_read L D q f a b : cov L D q f -> D a b = true \/ f a b = 0 -> at_ q a (L + b)%Z = f a b.
Proof. intros [_ H] [E|E]; rewrite H; [now rewrite E|]. rewrite E. now destruct (D a b). Qed.
Lemma cov_dom L D D' q f : (forall a b, D a b = D' a b) -> cov L D q f -> cov L D' q f.
Proof. intros E [Hd H]. split; [exact Hd|]. intros a b. now rewrite <- E. Qed.
Lemma cov_half L q f : (0 <= L)%Z -> cov L (fun a b => (0 <=? a) && (a <? L + 1) && (0 <=? b) && (b <=? a))%bool%Z q f -> half q f.
Proof.
  intros HL [Hd H] l m Hl Hm. unfold mom. rewrite Hd in *. rewrite H.
  destruct (Z.leb_spec 0 l), (Z.ltb_spec l (L + 1)); try lia. reflexivity.
Qed.
Definition cov4 (L : Z) (D : Z -> Z -> bool) (v : vec) (s : fbst) : Prop :=
  cov L D (fy s) (fun a b => S_ a b v) /\ cov L D (fx_ s) (fun a b => Sdx a b v) /\
  cov L D (fy_ s) (fun a b => Sdy a b v) /\ cov L D (fz_ s) (fun a b => Sdz a b v).
Lemma cov4_dom L D D' v s : (forall a b, D a b = D' a b) -> cov4 L D v s -> cov4 L D' v s.
Proof. intros E (H1 & H2 & H3 & H4). split; [|split; [|split]]; apply (cov_dom L D D' _ _ E); assumption. Qed.
Definition rows (n : Z) (a b : Z) : bool := ((0 <=? a) && (a <? n) && (0 <=? b) && (b <=? a))%bool%Z.
Ltac bcase := repeat match goal with |- context [ (?a <=? ?b)%Z ] => destruct (Z.leb_spec a b) | |- context [ (?a <? ?b)%Z ] => destruct (Z.ltb_spec a b)
  | |- context [ (?a =? ?b)%Z ] => destruct (Z.eqb_spec a b) end; cbn [andb orb]; try reflexivity; try lia.
Lemma IZRC_neq0 n : n <> 0%Z -> RtoC (IZR n) <> 0.
Proof. intros H. apply RtoC_neq0. intros E. apply eq_IZR in E. auto. Qed.
Lemma div_eq (a b c : C) : c <> 0 -> c * a = b -> b / c = a.
Proof. intros H <-. field. exact H. Qed.
Lemma fb_row_ok L x y z l s : (1 <= l)%Z -> cov4 L (rows l) (x, y, z) s ->
  cov4 L (rows (l + 1)) (x, y, z) (fb_row L x y z (x ^ 2 + y ^ 2 + z ^ 2) l s).
Proof.
  intros Hl (H1 & H2 & H3 & H4). unfold fb_row.
  assert (HS : cov4 L (fun a b => rows l a b || ((a =? l) && (b =? l)))%bool%Z (x, y, z) (fb_sect L l x y s)).
  { assert (Hn := IZRC_neq0 (2 * l) ltac:(lia)).
    assert (Hr : rows l (l - 1) (l - 1) = true) by (unfold rows; bcase).
    unfold fb_sect. replace (L + l - 1)%Z with (L + (l - 1))%Z by ring.
    rewrite (cov_read _ _ _ _ _ _ H1), (cov_read _ _ _ _ _ _ H2), (cov_read _ _ _ _ _ _ H3), (cov_read _ _ _ _ _ _ H4) by (left; exact Hr).
    split; [|split; [|split]]; cbn [fy fx_ fy_ fz_]; (apply cov_upd; [assumption|apply div_eq; [exact Hn|]]).
    - now apply S_sect.
    - now apply Sdx_sect.
    - now apply Sdy_sect.
    - now apply Sdz_sect. }
  clear H1 H2 H3 H4. destruct (Z.eqb_spec l 1) as [->|Hl1].
  - destruct HS as (H1 & H2 & H3 & H4). unfold fb_one.
    assert (A0 : forall D f q, cov L D q f -> D 0%Z 0%Z = true -> at_ q 0 L = f 0%Z 0%Z).
    { intros D f q H E. rewrite <- (cov_read L D q f 0 0 H (or_introl E)). now rewrite Z.add_0_r. }
    rewrite (A0 _ _ _ H1), (A0 _ _ _ H2), (A0 _ _ _ H3), (A0 _ _ _ H4) by reflexivity.
    assert (S00 : S_ 0 0 (x, y, z) = 1) by apply solid_00.
    destruct (Sd_deg0 0 (x, y, z)) as (E1 & E2 & E3). rewrite E1, E2, E3, S00.
    assert (G : cov4 L (fun a b => (rows 1 a b || ((a =? 1) && (b =? 1))) || ((a =? 1) && (b =? 0)))%bool%Z (x, y, z)
      (mkfb (upd (fy (fb_sect L 1 x y s)) 1 (L + 0) (RtoC (IZR (2 * 1 - 1)) * RtoC z * 1 / RtoC (IZR (1 ^ 2))))
            (upd (fx_ (fb_sect L 1 x y s)) 1 (L + 0) (RtoC (IZR (2 * 1 - 1)) * RtoC z * 0 / RtoC (IZR (1 ^ 2))))
            (upd (fy_ (fb_sect L 1 x y s)) 1 (L + 0) (RtoC (IZR (2 * 1 - 1)) * RtoC z * 0 / RtoC (IZR (1 ^ 2))))
            (upd (fz_ (fb_sect L 1 x y s)) 1 (L + 0) (RtoC (IZR (2 * 1 - 1)) * (1 + RtoC z * 0) / RtoC (IZR (1 ^ 2)))))).
    { assert (Hn : RtoC (IZR (1 ^ 2)) <> 0) by (apply IZRC_neq0; lia).
      assert (Z1 : forall v, S_ (1 - 1) (0 + 1) v = 0) by (intros; apply S_zero; lia).
      assert (Z2 : forall v, S_ (1 - 1) (0 - 1) v = 0) by (intros; apply S_zero; lia).
      split; [|split; [|split]]; cbn [fy fx_ fy_ fz_]; (apply cov_upd; [assumption|apply div_eq; [exact Hn|]]).
      - rewrite <- S00. change (1 ^ 2)%Z with (1 ^ 2 - 0 ^ 2)%Z. rewrite S_rec. rewrite (S_neg (1 - 2)) by lia. change (1 - 1)%Z with 0%Z. ring.
      - unfold Sdx. rewrite Z1, Z2. field.
      - unfold Sdy. rewrite Z1, Z2. field.
      - unfold Sdz. change (1 - 1)%Z with 0%Z. rewrite S00. change (1 ^ 2)%Z with 1%Z. change (2 * 1 - 1)%Z with 1%Z. ring. }
    rewrite Z.add_0_r in G. eapply cov4_dom; [|exact G]. intros a b. unfold rows. bcase.
  - apply (cov4_dom L (fun a b => rows l a b || ((a =? l) && (b =? l)) || ((a =? l) && (0 <=? b) && (b <? l)))%bool%Z).
    { intros a b. unfold rows. bcase. }
    apply (zfor_ind (fun k s => cov4 L (fun a b => rows l a b || ((a =? l) && (b =? l)) || ((a =? l) && (0 <=? b) && (b <? k)))%bool%Z (x, y, z) s)); [lia| |].
    + eapply cov4_dom; [|exact HS]. intros a b. cbv beta. unfold rows. bcase.
    + clear s HS. intros m s Hm (H1 & H2 & H3 & H4). unfold fb_tess.
      set (DD := (fun a b => rows l a b || ((a =? l) && (b =? l)) || ((a =? l) && (0 <=? b) && (b <? m)))%bool%Z) in *.
      assert (R1 : DD (l - 1)%Z m = true) by (unfold DD, rows; bcase).
      assert (R2 : DD (l - 2)%Z m = true \/ (l - 2 < Z.abs m)%Z) by (destruct (Z_lt_le_dec (l - 2) m); [right; lia|left; unfold DD, rows; bcase]).
      assert (R3 : forall f : Z -> Z -> C, ((l - 2 < Z.abs m)%Z -> f (l - 2)%Z m = 0) -> DD (l - 2)%Z m = true \/ f (l - 2)%Z m = 0) by (intros f Hf; destruct R2; auto).
      rewrite (cov_read _ _ _ _ _ _ H1 (or_introl R1)), (cov_read _ _ _ _ _ _ H2 (or_introl R1)), (cov_read _ _ _ _ _ _ H3 (or_introl R1)), (cov_read _ _ _ _ _ _ H4 (or_introl R1)).
      rewrite (cov_read _ _ _ _ (l - 2) m H1) by (apply (R3 (fun a b => S_ a b (x, y, z))); intros; now apply S_zero).
      rewrite (cov_read _ _ _ _ (l - 2) m H2) by (apply (R3 (fun a b => Sdx a b (x, y, z))); intros; now apply Sd_zero).
      rewrite (cov_read _ _ _ _ (l - 2) m H3) by (apply (R3 (fun a b => Sdy a b (x, y, z))); intros; now apply Sd_zero).
      rewrite (cov_read _ _ _ _ (l - 2) m H4) by (apply (R3 (fun a b => Sdz a b (x, y, z))); intros; now apply Sd_zero).
      apply (cov4_dom L (fun a b => DD a b || ((a =? l) && (b =? m)))%bool%Z). { intros a b. unfold DD, rows. bcase. }
      assert (Hn : RtoC (IZR (l ^ 2 - m ^ 2)) <> 0) by (apply IZRC_neq0; nia).
      assert (Dm : forall a b c : C, a / c - b / c = (a - b) / c) by (intros; unfold Cdiv; ring).
      rewrite !Dm.
      split; [|split; [|split]]; cbn [fy fx_ fy_ fz_]; (apply cov_upd; [assumption|apply div_eq; [exact Hn|]]).
      * apply S_rec.
      * apply Sdx_rec.
      * apply Sdy_rec.
      * apply Sdz_rec.
Qed.
Lemma S_origin l m : S_ l m v0 = if ((l =? 0) && (m =? 0))%bool%Z then 1 else 0.
Proof.
  unfold S_, v0. destruct (Z.eqb_spec l 0) as [->|]; cbn [andb].
  - destruct (Z.eqb_spec m 0) as [->|]; [apply solid_00|]. apply solid_zero. lia.
  - now apply solid_origin.
Qed.
Lemma basis_half_holds L x y z bX bY bZ : half bX (fun l m => Sdx l m (x, y, z)) -> half bY (fun l m => Sdy l m (x, y, z)) ->
  half bZ (fun l m => Sdz l m (x, y, z)) -> deg bX = L -> deg bY = L -> deg bZ = L ->
  deg (reflect bX) = L /\ deg (reflect bY) = L /\ deg (reflect bZ) = L /\
  holds (reflect bX) (fun l m => Sdx l m (x, y, z)) /\ holds (reflect bY) (fun l m => Sdy l m (x, y, z)) /\ holds (reflect bZ) (fun l m => Sdz l m (x, y, z)).
Proof.
  intros H1 H2 H3 D1 D2 D3. repeat (split; [assumption|]). split; [|split]; (apply reflect_holds; [assumption|]); intros.
  - apply Sdx_symm.
  - apply Sdy_symm.
  - apply Sdz_symm.
Qed.
Lemma force_basis_ok L x y z : (0 <= L)%Z -> (L = 0%Z -> (x, y, z) <> v0) ->
  exists bX bY bZ, force_basis L x y z = Ok (bX, bY, bZ) /\ deg bX = L /\ deg bY = L /\ deg bZ = L /\
  holds bX (fun l m => Sdx l m (x, y, z)) /\ holds bY (fun l m => Sdy l m (x, y, z)) /\ holds bZ (fun l m => Sdz l m (x, y, z)).
Proof.
  intros HL H0. unfold force_basis. destruct ((is0 x && is0 y) && is0 z)%bool eqn:E.
  - unfold is0 in E. destruct (Req_EM_T x 0) as [->|]; [|discriminate]. destruct (Req_EM_T y 0) as [->|]; [|discriminate]. destruct (Req_EM_T z 0) as [->|]; [|discriminate].
    destruct (Z.eqb_spec L 0); [now specialize (H0 e)|]. do 3 eexists. split; [reflexivity|].
    fold v0. unfold v0 at 1 2 3. apply basis_half_holds; try reflexivity; fold v0; intros l m Hl Hm; unfold mom; cbn [deg upd at_ zeros] in *.
    + unfold Sdx. rewrite !S_origin.
      destruct (Z.eqb_spec l 1), (Z.eqb_spec (L + m) (L + 1)), (Z.leb_spec 0 m), (Z.leb_spec m l), (Z.eqb_spec (l - 1) 0), (Z.eqb_spec (m + 1) 0), (Z.eqb_spec (m - 1) 0); try lia; cbn [andb]; try (field; fail).
      apply C_eq; cbn; field.
    + unfold Sdy. rewrite !S_origin.
      destruct (Z.eqb_spec l 1), (Z.eqb_spec (L + m) (L + 1)), (Z.leb_spec 0 m), (Z.leb_spec m l), (Z.eqb_spec (l - 1) 0), (Z.eqb_spec (m + 1) 0), (Z.eqb_spec (m - 1) 0); try lia; cbn [andb]; field.
    + unfold Sdz. rewrite !S_origin.
      destruct (Z.eqb_spec l 1), (Z.eqb_spec (L + m) L), (Z.leb_spec 0 m), (Z.leb_spec m l), (Z.eqb_spec (l - 1) 0), (Z.eqb_spec m 0); try lia; cbn [andb]; reflexivity.
  - do 3 eexists. split; [reflexivity|].
    assert (G : cov4 L (rows (L + 1)) (x, y, z) (zfor 1 (L + 1) (fb_row L x y z (x ^ 2 + y ^ 2 + z ^ 2)) (mkfb (upd (zeros L) 0 L 1) (zeros L) (zeros L) (zeros L)))).
    { apply (zfor_ind (fun n s => cov4 L (rows n) (x, y, z) s)); [lia| |].
      - assert (K : forall f : Z -> Z -> C, f 0%Z 0%Z = 0 -> cov L (rows 1) (zeros L) f).
        { intros f Hf. split; [reflexivity|]. intros a b. cbn. unfold rows. bcase. now replace a with 0%Z by lia; replace b with 0%Z by lia. }
        destruct (Sd_deg0 0 (x, y, z)) as (E1 & E2 & E3).
        split; [|split; [|split]]; cbn [fy fx_ fy_ fz_]; try (now apply K).
        split; [reflexivity|]. intros a b. cbn [upd at_ zeros]. unfold rows.
        destruct (Z.eqb_spec a 0), (Z.eqb_spec (L + b) L); cbn [andb]; bcase.
        subst a. replace b with 0%Z by lia. symmetry. apply solid_00.
      - intros n s Hn Hs. apply fb_row_ok; [lia|exact Hs]. }
    destruct G as (_ & G2 & G3 & G4).
    apply basis_half_holds; try (eapply cov_half; eassumption); try apply G2; try apply G3; apply G4.
Qed.

(* ---- multipole_force ---- *)
Lemma zfor_add3 a b (g : Z -> C * C * C -> C * C * C) (F1 F2 F3 : Z -> C) s :
  (forall k s, (a <= k < b)%Z -> g k s = addC3 s (F1 k, F2 k, F3 k)) ->
  zfor a b g s = addC3 s (zsum a b F1, zsum a b F2, zsum a b F3).
Proof.
  intros H. destruct (Z_le_gt_dec b a) as [Hab|Hab].
  - rewrite zfor_empty, !zsum_empty by lia. destruct s as [[s1 s2] s3]. cbn [addC3]. f_equal; [f_equal|]; ring.
  - apply (zfor_ind (fun k t => t = addC3 s (zsum a k F1, zsum a k F2, zsum a k F3))); [lia| |].
    + rewrite !zsum_empty by lia. destruct s as [[s1 s2] s3]. cbn [addC3]. f_equal; [f_equal|]; ring.
    + intros k t Hk ->. rewrite H by lia. rewrite !zsum_last by lia. destruct s as [[s1 s2] s3]. cbn [addC3]. f_equal; [f_equal|]; ring.
Qed.
Lemma zfor_map {S T} (h : S -> T) a b (f : Z -> S -> S) (g : Z -> T -> T) s :
  (forall k s, (a <= k < b)%Z -> h (f k s) = g k (h s)) -> h (zfor a b f s) = zfor a b g (h s).
Proof.
  intros H. destruct (Z_le_gt_dec b a) as [Hab|Hab].
  - now rewrite !zfor_empty by lia.
  - apply (zfor_ind (fun k t => h t = zfor a k g (h s)) a b f s); [lia| |].
    + now rewrite zfor_empty by lia.
    + intros k t Hk E. rewrite H by lia. rewrite zfor_last by lia. now rewrite E.
Qed.
(* the sum accumulated by the loops, selecting the orders mo with [sel mo] *)
Definition mf_sum (L : Z) (q Q : marr) (cnst : R) (sel : Z -> bool) (b : marr) : C :=
  zsum 0 (L + 1) (fun lo => zsum (- lo) (lo + 1) (fun mo => zsum (lo + 1) (L + 1) (fun l =>
    zsum (mo - (l - lo)) (mo + (l - lo) + 1) (fun m => if sel mo then mf_fac L q Q cnst lo mo l m * at_ b (l - lo) (L + m - mo) else 0)))).
Lemma mf_loop_sel L q Q c bX bY bZ (sel : Z -> bool) add s :
  (forall mo v t, add mo v t = if sel mo then addC3 t v else t) ->
  mf_loop L q Q c (bX, bY, bZ) add s = addC3 s (mf_sum L q Q c sel bX, mf_sum L q Q c sel bY, mf_sum L q Q c sel bZ).
Proof.
  intros Ha. unfold mf_loop, mf_sum.
  apply zfor_add3. intros lo s1 Hlo. apply zfor_add3. intros mo s2 Hmo. apply zfor_add3. intros l s3 Hl. apply zfor_add3. intros m s4 Hm.
  rewrite Ha. destruct (sel mo); [reflexivity|]. destruct s4 as [[a b] d]. cbn [addC3]. f_equal; [f_equal|]; ring.
Qed.
Lemma mf_loop_map {S T} (h : S -> T) L q Q c bs add add' s :
  (forall mo v t, h (add mo v t) = add' mo v (h t)) -> h (mf_loop L q Q c bs add s) = mf_loop L q Q c bs add' (h s).
Proof.
  intros Ha. unfold mf_loop. destruct bs as [[bX bY] bZ].
  apply zfor_map; intros lo s1 _. apply zfor_map; intros mo s2 _. apply zfor_map; intros l s3 _. apply zfor_map; intros m s4 _. apply Ha.
Qed.
Lemma addC3_0 v : addC3 c3zero v = v.
Proof. destruct v as [[a b] c]. unfold c3zero. cbn [addC3]. f_equal; [f_equal|]; ring. Qed.
Lemma mf_ok L q Q x y z c bX bY bZ : force_basis L x y z = Ok (bX, bY, bZ) ->
  multipole_force L q Q x y z c = Ok (mf_sum L q Q c (fun _ => true) bX, mf_sum L q Q c (fun _ => true) bY, mf_sum L q Q c (fun _ => true) bZ).
Proof.
  intros E. unfold multipole_force. rewrite E. cbn [bind]. f_equal.
  rewrite (mf_loop_sel L q Q c bX bY bZ (fun _ => true)) by reflexivity. now rewrite addC3_0.
Qed.
Lemma mfm_ok L q Q x y z c bX bY bZ : force_basis L x y z = Ok (bX, bY, bZ) ->
  exists F, multipole_force_m L q Q x y z c = Ok F /\ forall j, let sel := fun mo => (j =? pyidx (2 * L + 1) mo)%Z in
    F j = (mf_sum L q Q c sel bX, mf_sum L q Q c sel bY, mf_sum L q Q c sel bZ).
Proof.
  intros E. unfold multipole_force_m. rewrite E. cbn [bind]. eexists. split; [reflexivity|]. intros j. cbv zeta. set (sel := fun mo => (j =? pyidx (2 * L + 1) mo)%Z).
  rewrite (mf_loop_map (fun F : Z -> C * C * C => F j) L q Q c _ _ (fun mo v t => if sel mo then addC3 t v else t)) by reflexivity.
  rewrite (mf_loop_sel L q Q c bX bY bZ sel) by reflexivity. apply addC3_0.
Qed.
Lemma mf_fac_val L q Q c lo mo l m : deg q = L -> deg Q = L -> (Z.abs mo <= lo)%Z -> (Z.abs m <= l)%Z ->
  mf_fac L q Q c lo mo l m = RtoC (4 * PI * c) * (hq q lo mo * hQ Q l m).
Proof.
  intros Dq DQ H1 H2. unfold mf_fac. rewrite hq_in, hQ_in by assumption. unfold mom. rewrite Dq, DQ.
  set (fq := at_ q lo (L + mo)). set (fQ := at_ Q l (L + m)).
  assert (E : (sqrt (IZR (2 * l + 1) / IZR (2 * lo + 1)) * sqrt (exp (gammaln (l + m + 1) + gammaln (l - m + 1) - (gammaln (lo + mo + 1) + gammaln (lo - mo + 1)))) = nrm l m / nrm lo mo)%R).
  { unfold Rminus at 1. rewrite exp_plus, exp_Ropp, !exp_plus, !exp_gl. unfold nrm. rewrite !plus_IZR, !mult_IZR.
    assert (F1 := zfact_pos (l + m)). assert (F2 := zfact_pos (l - m)). assert (F3 := zfact_pos (lo + mo)). assert (F4 := zfact_pos (lo - mo)).
    assert (P1 := PI_RGT_0). assert (O1 : (0 < 2 * IZR l + 1)%R) by (assert (0 <= IZR l)%R by (apply IZR_le; lia); lra).
    assert (O2 : (0 < 2 * IZR lo + 1)%R) by (assert (0 <= IZR lo)%R by (apply IZR_le; lia); lra).
    rewrite <- sqrt_div, <- sqrt_mult.
    - f_equal. field. repeat split; apply Rgt_not_eq; assumption.
    - apply Rlt_le, Rdiv_lt_0_compat; assumption.
    - apply Rlt_le, Rmult_lt_0_compat; [now apply Rmult_lt_0_compat|]. apply Rinv_0_lt_compat. now apply Rmult_lt_0_compat.
    - apply Rlt_le, Rdiv_lt_0_compat; [|lra]. repeat apply Rmult_lt_0_compat; assumption.
    - apply Rdiv_lt_0_compat; [|lra]. repeat apply Rmult_lt_0_compat; assumption. }
  assert (E' : RtoC (sqrt (IZR (2 * l + 1) / IZR (2 * lo + 1))) * RtoC (sqrt (exp (gammaln (l + m + 1) + gammaln (l - m + 1) - (gammaln (lo + mo + 1) + gammaln (lo - mo + 1))))) = RtoC (nrm l m) / RtoC (nrm lo mo)).
  { rewrite <- RtoC_mult, E, RtoC_div by (apply nrm_neq0; lia). reflexivity. }
  assert (N1 := nrmC_neq0 lo mo ltac:(lia)). assert (N2 : RtoC (2 * IZR l + 1) <> 0) by (apply RtoC_neq0, odd_neq0; lia).
  replace (IZR (2 * l + 1)) with (2 * IZR l + 1)%R in * by (rewrite plus_IZR, mult_IZR; reflexivity).
  set (s1 := sqrt ((2 * IZR l + 1) / IZR (2 * lo + 1))) in *.
  set (s2 := sqrt (exp _)) in *.
  transitivity (fQ * fq * RtoC (4 * PI * c) / RtoC (2 * IZR l + 1) * (RtoC s1 * RtoC s2)); [field; exact N2|]. rewrite E'.
  rewrite RtoC_div by (apply odd_neq0; lia). field. split; assumption.
Qed.
(* the translation operator with the kernel G in place of S *)
Definition TG (N : Z) (G f : Z -> Z -> C) (L M : Z) : C :=
  zsum 0 (N + 1) (fun l => zsum (- N) (N + 1) (fun m => G (L - l)%Z (M - m)%Z * f l m)).
Lemma mf_sum_val L q Q c b G : (0 <= L)%Z -> deg q = L -> deg Q = L -> deg b = L -> holds b G ->
  (forall l m, (l <= 0 \/ l < Z.abs m)%Z -> G l m = 0) ->
  mf_sum L q Q c (fun _ => true) b = RtoC (4 * PI * c) * hpair L (TG L G (hq q)) (hQ Q).
Proof.
  intros HL Dq DQ Db [Hb _] HG. unfold mf_sum, hpair, TG.
  set (T lo mo l m := RtoC (4 * PI * c) * (G (l - lo)%Z (m - mo)%Z * hq q lo mo * hQ Q l m)).
  transitivity (zsum 0 (L + 1) (fun lo => zsum (- L) (L + 1) (fun mo => zsum 0 (L + 1) (fun l => zsum (- L) (L + 1) (fun m => T lo mo l m))))).
  - apply zsum_ext. intros lo Hlo. symmetry.
    rewrite (zsum_sub (- L) (L + 1) (- lo) (lo + 1)).
    2,3: lia. 2:{ intros mo H1 H2. apply zsum_0. intros l _. apply zsum_0. intros m _. unfold T. rewrite supp_hq by lia. ring. }
    apply zsum_ext. intros mo Hmo.
    rewrite (zsum_sub 0 (L + 1) (lo + 1) (L + 1)).
    2,3: lia. 2:{ intros l H1 H2. apply zsum_0. intros m _. unfold T. rewrite HG by lia. ring. }
    apply zsum_ext. intros l Hl.
    rewrite (zsum_sub (- L) (L + 1) (mo - (l - lo)) (mo + (l - lo) + 1)).
    2,3: lia. 2:{ intros m H1 H2. unfold T. rewrite HG by lia. ring. }
    apply zsum_ext. intros m Hm. rewrite mf_fac_val by (assumption || lia).
    replace (L + m - mo)%Z with (deg b + (m - mo))%Z by (rewrite Db; ring). fold (mom b (l - lo) (m - mo)). rewrite Hb by lia. unfold T. ring.
  - symmetry. rewrite <- zsum_scal_l.
    transitivity (zsum 0 (L + 1) (fun l => zsum (- L) (L + 1) (fun m => zsum 0 (L + 1) (fun lo => zsum (- L) (L + 1) (fun mo => T lo mo l m))))).
    { apply zsum_ext. intros l _. rewrite <- zsum_scal_l. apply zsum_ext. intros m _.
      transitivity (zsum 0 (L + 1) (fun lo => RtoC (4 * PI * c) * zsum (- L) (L + 1) (fun mo => G (l - lo)%Z (m - mo)%Z * hq q lo mo) * hQ Q l m)).
      - rewrite zsum_scal_r, zsum_scal_l. ring.
      - apply zsum_ext. intros lo _. rewrite <- Cmult_assoc, <- zsum_scal_r, <- zsum_scal_l. reflexivity. }
    transitivity (zsum 0 (L + 1) (fun l => zsum 0 (L + 1) (fun lo => zsum (- L) (L + 1) (fun m => zsum (- L) (L + 1) (fun mo => T lo mo l m))))).
    { apply zsum_ext. intros l _. apply zsum_swap. }
    rewrite zsum_swap. apply zsum_ext. intros lo _.
    transitivity (zsum 0 (L + 1) (fun l => zsum (- L) (L + 1) (fun mo => zsum (- L) (L + 1) (fun m => T lo mo l m)))).
    { apply zsum_ext. intros l _. apply zsum_swap. }
    apply zsum_swap.
Qed.
Lemma hpair_grad N f g x y z :
  cgrad (fun v => hpair N (Tin N f v) g) (x, y, z)
    (hpair N (TG N (fun l m => Sdx l m (x, y, z)) f) g) (hpair N (TG N (fun l m => Sdy l m (x, y, z)) f) g) (hpair N (TG N (fun l m => Sdz l m (x, y, z)) f) g).
Proof.
  unfold cgrad, hpair, Tin, TG. split; [|split].
  all: apply (cder_zsum 0 (N + 1) (fun l t => _)); intros l Hl; apply (cder_zsum (- N) (N + 1) (fun m t => _)); intros m Hm.
  all: apply cder_scal_r; apply (cder_zsum 0 (N + 1) (fun lo t => _)); intros lo Hlo; apply (cder_zsum (- N) (N + 1) (fun mo t => _)); intros mo Hmo.
  all: apply cder_scal_r.
  - apply S_dx.
  - apply S_dy.
  - apply S_dz.
Qed.
Lemma Sd_kern0 l m v : (l <= 0 \/ l < Z.abs m)%Z -> Sdx l m v = 0 /\ Sdy l m v = 0 /\ Sdz l m v = 0.
Proof.
  intros [H|H]; [|now apply Sd_zero]. unfold Sdx, Sdy, Sdz. rewrite !S_neg by lia. repeat split; field.
Qed.
Lemma multipole_force_grad q Q x y z c : (0 <= deg q)%Z -> deg Q = deg q -> (deg q = 0%Z -> (x, y, z) <> v0) ->
  exists fx fy fz, multipole_force (deg q) q Q x y z c = Ok (fx, fy, fz) /\
  cgrad (fun v => RtoC (4 * PI * c) * hpair (deg q) (Tin (deg q) (hq q) v) (hQ Q)) (x, y, z) fx fy fz.
Proof.
  intros HL DQ H0. destruct (force_basis_ok (deg q) x y z HL H0) as (bX & bY & bZ & E & D1 & D2 & D3 & G1 & G2 & G3).
  do 3 eexists. split; [apply (mf_ok _ q Q _ _ _ c _ _ _ E)|].
  rewrite (mf_sum_val _ q Q c bX _ HL eq_refl DQ D1 G1), (mf_sum_val _ q Q c bY _ HL eq_refl DQ D2 G2), (mf_sum_val _ q Q c bZ _ HL eq_refl DQ D3 G3)
   by (intros l m H; apply (Sd_kern0 l m (x, y, z) H)).
  destruct (hpair_grad (deg q) (hq q) (hQ Q) x y z) as (A & B & D).
  split; [|split]; apply cder_scal; assumption.
Qed.
