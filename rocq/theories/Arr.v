(* Moment arrays: numpy complex arrays of shape (L+1) x (2L+1), row l, column L+m. *)
From Verif Require Export Solid Res.
Open Scope C_scope.

(* shape (deg+1, 2 deg+1); at_ i j is the entry in row i, column j *)
Record marr := mkarr { deg : Z; at_ : Z -> Z -> C }.

(* ---- specification vocabulary ------------------------------------------- *)
(* the (l,m) moment held by the array: entry [l, L+m] *)
Definition mom (q : marr) (l m : Z) : C := at_ q l (deg q + m).
(* two arrays of the same shape with the same entries *)
Definition same (q q' : marr) : Prop :=
  deg q = deg q' /\ forall l m, (0 <= l <= deg q)%Z -> (Z.abs m <= deg q)%Z -> mom q l m = mom q' l m.
(* q(l,-m) = (-1)^m conj q(l,m) *)
Definition reality (q : marr) : Prop :=
  forall l m, (0 <= l <= deg q)%Z -> (Z.abs m <= deg q)%Z -> mom q l (- m) = sgnC m * Cconj (mom q l m).
(* the corners |m| > l of the rectangular array are zero *)
Definition corners0 (q : marr) : Prop :=
  forall l m, (0 <= l <= deg q)%Z -> (l < Z.abs m <= deg q)%Z -> mom q l m = 0.
(* the array holds the family f *)
Definition holds (q : marr) (f : Z -> Z -> C) : Prop :=
  (forall l m, (0 <= l <= deg q)%Z -> (Z.abs m <= l)%Z -> mom q l m = f l m) /\ corners0 q.

(* ---- numpy building blocks ----------------------------------------------- *)
(* np.zeros([L+1, 2*L+1], dtype='complex') *)
Definition zeros (L : Z) : marr := mkarr L (fun _ _ => 0).
(* q[i, j] = v *)
Definition upd (q : marr) (i j : Z) (v : C) : marr :=
  mkarr (deg q) (fun a b => if ((a =? i) && (b =? j))%bool%Z then v else at_ q a b).
(* for n in range(a, b): for m in range(n+1): q[n, L+m] = f n m *)
Definition fill (a b L : Z) (f : Z -> Z -> C) (q : marr) : marr :=
  zfor a b (fun n q => zfor 0 (n + 1) (fun m q => upd q n (L + m)%Z (f n m)) q) q.
(* ms = arange(-L, L+1); q += conj(fliplr(q))*(-1)**abs(ms); q[:, L] /= 2 *)
Definition reflect (q : marr) : marr :=
  let L := deg q in
  let q1 := mkarr L (fun i j => at_ q i j + Cconj (at_ q i (2 * L - j)%Z) * sgnC (Z.abs (j - L))) in
  mkarr L (fun i j => if (j =? L)%Z then at_ q1 i j / RtoC 2 else at_ q1 i j).

(* ---- lemmas ---------------------------------------------------------------- *)
Lemma deg_upd q i j v : deg (upd q i j v) = deg q. Proof. reflexivity. Qed.
Lemma upd_spec q i j v a b : at_ (upd q i j v) a b = if ((a =? i) && (b =? j))%bool%Z then v else at_ q a b.
Proof. reflexivity. Qed.
Lemma fill_row (L n : Z) (f : Z -> C) q k : (0 <= k)%Z ->
  let q' := zfor 0 k (fun m q => upd q n (L + m)%Z (f m)) q in
  deg q' = deg q /\ forall a b, at_ q' a b =
    if ((a =? n) && (L <=? b) && (b <? L + k))%bool%Z then f (b - L)%Z else at_ q a b.
Proof.
  intros Hk. apply (zfor_ind (fun k q' => deg q' = deg q /\ forall a b, at_ q' a b =
    if ((a =? n) && (L <=? b) && (b <? L + k))%bool%Z then f (b - L)%Z else at_ q a b)); [assumption| |].
  - split; [reflexivity|]. intros a b. destruct (Z.leb_spec L b), (Z.ltb_spec b (L + 0)); try lia; destruct (a =? n)%Z; reflexivity.
  - intros m t Hm [Hd Ht]. split; [exact Hd|]. intros a b. rewrite upd_spec, Ht.
    destruct (Z.eqb_spec a n); cbn [andb]; [|reflexivity].
    destruct (Z.eqb_spec b (L + m)).
    + subst. destruct (Z.leb_spec L (L + m)), (Z.ltb_spec (L + m) (L + (m + 1))); try lia. cbn. f_equal. ring.
    + destruct (Z.leb_spec L b), (Z.ltb_spec b (L + m)), (Z.ltb_spec b (L + (m + 1))); try lia; reflexivity.
Qed.
Lemma fill_spec a b L f q : (0 <= a <= b)%Z ->
  deg (fill a b L f q) = deg q /\ forall i j, at_ (fill a b L f q) i j =
    if ((a <=? i) && (i <? b) && (L <=? j) && (j <=? L + i))%bool%Z then f i (j - L)%Z else at_ q i j.
Proof.
  intros Hab. unfold fill. apply (zfor_ind (fun b q' => deg q' = deg q /\ forall i j, at_ q' i j =
    if ((a <=? i) && (i <? b) && (L <=? j) && (j <=? L + i))%bool%Z then f i (j - L)%Z else at_ q i j)); [lia| |].
  - split; [reflexivity|]. intros i j. destruct (Z.leb_spec a i), (Z.ltb_spec i a); try lia; reflexivity.
  - intros n t Hn [Hd Ht]. destruct (fill_row L n (f n) t (n + 1)) as [E1 E2]; [lia|].
    split; [congruence|]. intros i j. rewrite E2, Ht.
    destruct (Z.eqb_spec i n).
    + subst i. destruct (Z.leb_spec a n), (Z.ltb_spec n n), (Z.ltb_spec n (n + 1)), (Z.leb_spec L j), (Z.ltb_spec j (L + (n + 1))), (Z.leb_spec j (L + n));
       try lia; reflexivity.
    + cbn [andb]. destruct (Z.leb_spec a i), (Z.ltb_spec i n), (Z.ltb_spec i (n + 1)); try lia; reflexivity.
Qed.
Lemma deg_fill a b L f q : (0 <= a <= b)%Z -> deg (fill a b L f q) = deg q.
Proof. intros. now apply fill_spec. Qed.
Lemma fill_ext a b L f g q : (0 <= a <= b)%Z -> (forall n m, (a <= n < b)%Z -> (0 <= m <= n)%Z -> f n m = g n m) ->
  fill a b L f q = fill a b L g q.
Proof.
  intros Hab H. unfold fill. apply zfor_ext. intros n t Hn. apply zfor_ext. intros m t' Hm. f_equal. apply H; lia.
Qed.

Lemma deg_reflect q : deg (reflect q) = deg q. Proof. reflexivity. Qed.
(* half-filled array: entries f l m for 0<=m<=l, nothing at m<0 or m>l *)
Definition half (q : marr) (f : Z -> Z -> C) : Prop :=
  forall l m, (0 <= l <= deg q)%Z -> (Z.abs m <= deg q)%Z ->
    mom q l m = if ((0 <=? m) && (m <=? l))%bool%Z then f l m else 0.
Lemma reflect_mom q f l m : half q f -> (0 <= l <= deg q)%Z -> (Z.abs m <= deg q)%Z ->
  mom (reflect q) l m =
    if (m =? 0)%Z then RtoC (Re (f l 0%Z))
    else if ((0 <? m) && (m <=? l))%bool%Z then f l m
    else if ((m <? 0) && (- m <=? l))%bool%Z then sgnC m * Cconj (f l (- m)%Z) else 0.
Proof.
  intros H Hl Hm. unfold mom, reflect. cbn [deg at_].
  replace (2 * deg q - (deg q + m))%Z with (deg q + - m)%Z by ring.
  replace (deg q + m - deg q)%Z with m by ring.
  fold (mom q l m) (mom q l (- m)). rewrite (H l m), (H l (- m)%Z) by lia. rewrite sgnC_abs.
  destruct (Z.eqb_spec m 0) as [->|Hm0].
  - rewrite Z.add_0_r, Z.eqb_refl. change (- 0)%Z with 0%Z. rewrite sgnC_0.
    destruct (Z.leb_spec 0 0), (Z.leb_spec 0 l); try lia. cbn [andb].
    destruct (f l 0%Z) as [a b]. apply C_eq; simpl; field.
  - destruct (Z.eqb_spec (deg q + m) (deg q)); [lia|].
    destruct (Z.leb_spec 0 m), (Z.leb_spec 0 (- m)), (Z.ltb_spec 0 m), (Z.ltb_spec m 0), (Z.leb_spec m l), (Z.leb_spec (- m) l); try lia; cbn [andb];
      rewrite ?Cconj_RtoC; ring.
Qed.
Lemma reflect_reality q f : half q f -> reality (reflect q) /\ corners0 (reflect q).
Proof.
  intros H. split.
  - intros l m Hl Hm. rewrite deg_reflect in *. rewrite !(reflect_mom q f) by (assumption || lia).
    destruct (Z.eqb_spec m 0) as [->|Hm0].
    + rewrite Z.eqb_refl || (replace (- 0 =? 0)%Z with true by reflexivity). rewrite sgnC_0, Cconj_RtoC. simpl. ring.
    + destruct (Z.eqb_spec (- m) 0); [lia|]. rewrite Z.opp_involutive, sgnC_opp.
      destruct (Z.ltb_spec 0 m), (Z.ltb_spec m 0), (Z.ltb_spec 0 (- m)), (Z.ltb_spec (- m) 0), (Z.leb_spec m l), (Z.leb_spec (- m) l); try lia; cbn [andb];
       rewrite ?Cconj_mult, ?Cconj_conj, ?sgnC_conj, ?Cconj_RtoC; try ring; rewrite Cmult_assoc, sgnC_sq; ring.
  - intros l m Hl Hm. rewrite deg_reflect in *. rewrite (reflect_mom q f) by (assumption || lia).
    destruct (Z.eqb_spec m 0); [lia|].
    destruct (Z.ltb_spec 0 m), (Z.ltb_spec m 0), (Z.leb_spec m l), (Z.leb_spec (- m) l); try lia; reflexivity.
Qed.
(* a family with the reality symmetry is reproduced from its m >= 0 half *)
Lemma reflect_holds q f : half q f -> (forall l m, (Z.abs m <= l)%Z -> f l (- m)%Z = sgnC m * Cconj (f l m)) ->
  holds (reflect q) f.
Proof.
  intros H Hs. split; [|now apply (reflect_reality q f)].
  intros l m Hl Hm. rewrite deg_reflect in *. rewrite (reflect_mom q f) by (assumption || lia).
  destruct (Z.eqb_spec m 0) as [->|Hm0].
  - assert (E := Hs l 0%Z ltac:(lia)). change (- 0)%Z with 0%Z in E. rewrite sgnC_0, Cmult_1_l in E.
    apply C_eq; simpl; [reflexivity|]. symmetry. now apply Cconj_fix_real.
  - destruct (Z.ltb_spec 0 m), (Z.ltb_spec m 0), (Z.leb_spec m l), (Z.leb_spec (- m) l); try lia; cbn [andb]; [reflexivity|].
    rewrite Hs by lia. rewrite Cconj_mult, Cconj_conj, sgnC_conj, Cmult_assoc, sgnC_sq. ring.
Qed.
Lemma half_fill L f : (0 <= L)%Z -> half (fill 0 (L + 1) L f (zeros L)) f.
Proof.
  intros HL l m Hl Hm. destruct (fill_spec 0 (L + 1) L f (zeros L)) as [Ed Ea]; [lia|].
  unfold mom. rewrite Ed in *. cbn [deg zeros] in *. rewrite Ea. cbn [at_ zeros].
  replace (L + m - L)%Z with m by ring.
  destruct (Z.leb_spec 0 l), (Z.ltb_spec l (L + 1)), (Z.leb_spec L (L + m)), (Z.leb_spec (L + m) (L + l)), (Z.leb_spec 0 m), (Z.leb_spec m l); try lia; reflexivity.
Qed.
Lemma holds_deg_ext q f g : (forall l m, (0 <= l <= deg q)%Z -> (Z.abs m <= l)%Z -> f l m = g l m) -> holds q f -> holds q g.
Proof. intros H [H1 H2]. split; [|exact H2]. intros. rewrite <- H by assumption. now apply H1. Qed.
Lemma holds_same q q' f : deg q = deg q' -> holds q f -> holds q' f -> same q q'.
Proof.
  intros Hd [H1 H2] [H3 H4]. split; [exact Hd|]. intros l m Hl Hm.
  destruct (Z_lt_le_dec l (Z.abs m)).
  - rewrite H2, H4 by (rewrite <- ?Hd; lia). reflexivity.
  - rewrite H1, H3 by (rewrite <- ?Hd; lia). reflexivity.
Qed.
Lemma holds_of_same q q' f : same q q' -> holds q f -> holds q' f.
Proof.
  intros [Hd H] [H1 H2]. split; intros l m Hl Hm; rewrite <- Hd in *; rewrite <- H by lia; [now apply H1|now apply H2].
Qed.
Lemma same_refl q : same q q. Proof. split; auto. Qed.
Lemma same_sym q q' : same q q' -> same q' q.
Proof. intros [H1 H2]. split; [auto|]. intros. symmetry. apply H2; rewrite H1; auto. Qed.
Lemma same_trans q q' q'' : same q q' -> same q' q'' -> same q q''.
Proof. intros [H1 H2] [H3 H4]. split; [congruence|]. intros. rewrite H2 by auto. apply H4; rewrite <- H1; auto. Qed.
Lemma holds_reality q f : (forall l m, (Z.abs m <= l)%Z -> f l (- m)%Z = sgnC m * Cconj (f l m)) -> holds q f -> reality q.
Proof.
  intros Hs [H1 H2] l m Hl Hm. destruct (Z_lt_le_dec l (Z.abs m)).
  - rewrite !H2 by lia. rewrite Cconj_RtoC. ring.
  - rewrite !H1 by lia. now apply Hs.
Qed.
Lemma reality_corner_half q : reality q -> corners0 q -> forall l m, (0 <= l <= deg q)%Z -> (Z.abs m <= l)%Z ->
  mom q l (- m) = sgnC m * Cconj (mom q l m).
Proof. intros H _ l m Hl Hm. apply H; lia. Qed.
