(* Finite sums over Python ranges, with the lemma library used everywhere. *)
From Verif Require Export Cplx.
From Coq Require Import FunctionalExtensionality Permutation.
Open Scope C_scope.

(* sum_{i<n} f i *)
Fixpoint nsum (n : nat) (f : nat -> C) : C :=
  match n with O => 0 | S k => nsum k f + f k end.

(* the value accumulated by   s = 0; for k in range(a, b): s += f(k)   *)
Definition zsum (a b : Z) (f : Z -> C) : C :=
  nsum (Z.to_nat (b - a)) (fun i => f (a + Z.of_nat i)%Z).

Lemma nsum_ext n f g : (forall i, (i < n)%nat -> f i = g i) -> nsum n f = nsum n g.
Proof. induction n; simpl; intros H; [reflexivity|]. rewrite IHn by (intros; apply H; lia). now rewrite H by lia. Qed.
Lemma nsum_0 n (f : nat -> C) : (forall i, (i < n)%nat -> f i = 0) -> nsum n f = 0.
Proof. induction n; simpl; intros H; [reflexivity|]. rewrite IHn by (intros; apply H; lia). rewrite H by lia. ring. Qed.
Lemma nsum_plus n f g : nsum n (fun i => f i + g i) = nsum n f + nsum n g.
Proof. induction n; simpl; [ring|rewrite IHn; ring]. Qed.
Lemma nsum_scal_l n c f : nsum n (fun i => c * f i) = c * nsum n f.
Proof. induction n; simpl; [ring|rewrite IHn; ring]. Qed.
Lemma nsum_scal_r n c f : nsum n (fun i => f i * c) = nsum n f * c.
Proof. induction n; simpl; [ring|rewrite IHn; ring]. Qed.
Lemma nsum_conj n f : Cconj (nsum n f) = nsum n (fun i => Cconj (f i)).
Proof. induction n; simpl; [apply Cconj_RtoC|now rewrite Cconj_plus, IHn]. Qed.
Lemma nsum_add n p f : nsum (n + p) f = nsum n f + nsum p (fun i => f (n + i)%nat).
Proof.
  induction p; simpl.
  - rewrite Nat.add_0_r. ring.
  - rewrite Nat.add_succ_r. simpl. rewrite IHp. ring.
Qed.
Lemma nsum_S_l n f : nsum (S n) f = f O + nsum n (fun i => f (S i)).
Proof. change (S n) with (1 + n)%nat. rewrite nsum_add. simpl. ring. Qed.
Lemma nsum_swap n p (f : nat -> nat -> C) :
  nsum n (fun i => nsum p (fun j => f i j)) = nsum p (fun j => nsum n (fun i => f i j)).
Proof.
  induction n; simpl.
  - symmetry. apply nsum_0; reflexivity.
  - rewrite IHn, <- nsum_plus. reflexivity.
Qed.
Lemma nsum_rev n f : nsum n f = nsum n (fun i => f (n - 1 - i)%nat).
Proof.
  induction n; [reflexivity|].
  rewrite (nsum_S_l n (fun i => f (S n - 1 - i)%nat)). cbn [nsum]. rewrite IHn.
  rewrite Cplus_comm. f_equal.
  - f_equal; lia.
  - apply nsum_ext; intros; f_equal; lia.
Qed.
(* extend the range by terms that vanish *)
Lemma nsum_extend n p (f : nat -> C) : (n <= p)%nat -> (forall i, (n <= i < p)%nat -> f i = 0) -> nsum p f = nsum n f.
Proof.
  intros Hnp H. replace p with (n + (p - n))%nat by lia. rewrite nsum_add.
  rewrite (nsum_0 (p - n)); [ring|]. intros; apply H; lia.
Qed.
(* triangular exchange *)
Lemma nsum_tri n (f : nat -> nat -> C) :
  nsum n (fun i => nsum (S i) (fun j => f i j)) = nsum n (fun j => nsum (n - j) (fun k => f (j + k)%nat j)).
Proof.
  induction n; [reflexivity|].
  assert (SR : forall m (g : nat -> C), nsum (S m) g = nsum m g + g m) by reflexivity.
  rewrite (SR n (fun i => nsum (S i) (fun j => f i j))), IHn.
  rewrite (SR n (fun j => nsum (S n - j) (fun k => f (j + k)%nat j))).
  assert (E : nsum n (fun j => nsum (S n - j) (fun k => f (j + k)%nat j)) =
              nsum n (fun j => nsum (n - j) (fun k => f (j + k)%nat j)) + nsum n (f n)).
  { rewrite <- nsum_plus. apply nsum_ext. intros i Hi.
    rewrite Nat.sub_succ_l by lia. cbn [nsum]. f_equal. f_equal; lia. }
  rewrite E. replace (S n - n)%nat with 1%nat by lia.
  cbv beta. rewrite !SR. change (fun j => f n j) with (f n). cbn [nsum].
  rewrite Nat.add_0_r. ring.
Qed.

(* zsum *)
Lemma zsum_ext a b f g : (forall k, (a <= k < b)%Z -> f k = g k) -> zsum a b f = zsum a b g.
Proof. intros H. unfold zsum. apply nsum_ext. intros; apply H; lia. Qed.
Lemma zsum_0 a b (f : Z -> C) : (forall k, (a <= k < b)%Z -> f k = 0) -> zsum a b f = 0.
Proof. intros H. unfold zsum. apply nsum_0. intros; apply H; lia. Qed.
Lemma zsum_empty a b f : (b <= a)%Z -> zsum a b f = 0.
Proof. intros H. apply zsum_0. intros; lia. Qed.
Lemma zsum_plus a b f g : zsum a b (fun k => f k + g k) = zsum a b f + zsum a b g.
Proof. apply nsum_plus. Qed.
Lemma zsum_scal_l a b c f : zsum a b (fun k => c * f k) = c * zsum a b f.
Proof. apply nsum_scal_l. Qed.
Lemma zsum_scal_r a b c f : zsum a b (fun k => f k * c) = zsum a b f * c.
Proof. apply (nsum_scal_r _ c (fun i => f (a + Z.of_nat i)%Z)). Qed.
Lemma zsum_opp a b f : zsum a b (fun k => - f k) = - zsum a b f.
Proof.
  transitivity (RtoC (-1) * zsum a b f); [|ring].
  rewrite <- zsum_scal_l. apply zsum_ext; intros; ring.
Qed.
Lemma zsum_minus a b f g : zsum a b (fun k => f k - g k) = zsum a b f - zsum a b g.
Proof. unfold Cminus. rewrite zsum_plus, zsum_opp. reflexivity. Qed.
Lemma zsum_conj a b f : Cconj (zsum a b f) = zsum a b (fun k => Cconj (f k)).
Proof. apply nsum_conj. Qed.
Lemma zsum_swap a b c d (f : Z -> Z -> C) :
  zsum a b (fun i => zsum c d (fun j => f i j)) = zsum c d (fun j => zsum a b (fun i => f i j)).
Proof. unfold zsum. apply (nsum_swap _ _ (fun i j => f (a + Z.of_nat i)%Z (c + Z.of_nat j)%Z)). Qed.
Lemma zsum_split c a b f : (a <= c <= b)%Z -> zsum a b f = zsum a c f + zsum c b f.
Proof.
  intros H. unfold zsum.
  replace (Z.to_nat (b - a)) with (Z.to_nat (c - a) + Z.to_nat (b - c))%nat by lia.
  rewrite nsum_add. f_equal. apply nsum_ext. intros. f_equal. lia.
Qed.
Lemma zsum_one a f : zsum a (a + 1) f = f a.
Proof.
  unfold zsum. replace (Z.to_nat (a + 1 - a)) with 1%nat by lia. cbn [nsum].
  replace (a + Z.of_nat 0)%Z with a by lia. ring.
Qed.
Lemma zsum_last a b f : (a <= b)%Z -> zsum a (b + 1) f = zsum a b f + f b.
Proof. intros H. rewrite (zsum_split b) by lia. now rewrite zsum_one. Qed.
Lemma zsum_first a b f : (a < b)%Z -> zsum a b f = f a + zsum (a + 1) b f.
Proof. intros H. rewrite (zsum_split (a + 1)) by lia. now rewrite zsum_one. Qed.
Lemma zsum_shift d a b f : zsum a b f = zsum (a + d) (b + d) (fun k => f (k - d)%Z).
Proof.
  unfold zsum. replace (b + d - (a + d))%Z with (b - a)%Z by ring.
  apply nsum_ext. intros. f_equal. ring.
Qed.
Lemma zsum_rev a b f : zsum a b f = zsum (1 - b) (1 - a) (fun k => f (- k)%Z).
Proof.
  unfold zsum. replace (1 - a - (1 - b))%Z with (b - a)%Z by ring.
  rewrite nsum_rev. apply nsum_ext. intros. f_equal. lia.
Qed.
Lemma zsum_sub a b c d (f : Z -> C) :
  (a <= c <= d)%Z -> (d <= b)%Z -> (forall k, (a <= k < b)%Z -> ~ (c <= k < d)%Z -> f k = 0) ->
  zsum a b f = zsum c d f.
Proof.
  intros H1 H2 H. rewrite (zsum_split c a b), (zsum_split d c b) by lia.
  rewrite (zsum_0 a c), (zsum_0 d b). ring.
  - intros; apply H; lia.
  - intros; apply H; lia.
Qed.
(* same sum over two ranges when the terms vanish off their intersection *)
Lemma zsum_supp a b c d (f : Z -> C) :
  (forall k, (a <= k < b)%Z -> ~ (c <= k < d)%Z -> f k = 0) ->
  (forall k, (c <= k < d)%Z -> ~ (a <= k < b)%Z -> f k = 0) ->
  zsum a b f = zsum c d f.
Proof.
  intros H1 H2.
  destruct (Z_lt_le_dec (Z.max a c) (Z.min b d)) as [Hlt|Hge].
  - transitivity (zsum (Z.max a c) (Z.min b d) f).
    + apply zsum_sub; try lia. intros; apply H1; lia.
    + symmetry. apply zsum_sub; try lia. intros; apply H2; lia.
  - rewrite (zsum_0 a b), (zsum_0 c d); [reflexivity| |]; intros.
    + apply H2; lia.
    + apply H1; lia.
Qed.
Lemma zsum_single a b k0 (f : Z -> C) :
  (a <= k0 < b)%Z -> (forall k, (a <= k < b)%Z -> k <> k0 -> f k = 0) -> zsum a b f = f k0.
Proof.
  intros H1 H2. rewrite <- (zsum_one k0 f). apply zsum_sub; try lia.
  intros; apply H2; lia.
Qed.
Lemma zsum_nsum n f : zsum 0 (Z.of_nat n) f = nsum n (fun i => f (Z.of_nat i)).
Proof. unfold zsum. rewrite Z.sub_0_r, Nat2Z.id. apply nsum_ext. intros; f_equal; lia. Qed.
Lemma zsum_const_mul_if a b (P : bool) f : (if P then zsum a b f else 0) = zsum a b (fun k => if P then f k else 0).
Proof. destruct P; [reflexivity|]. symmetry; now apply zsum_0. Qed.

(* sums over lists *)
Fixpoint lsum {A} (f : A -> C) (l : list A) : C :=
  match l with nil => 0 | x :: r => f x + lsum f r end.
Lemma lsum_app {A} f (l1 l2 : list A) : lsum f (l1 ++ l2) = lsum f l1 + lsum f l2.
Proof. induction l1; simpl; [ring|rewrite IHl1; ring]. Qed.
Lemma lsum_ext {A} f g (l : list A) : (forall x, In x l -> f x = g x) -> lsum f l = lsum g l.
Proof. induction l; simpl; intros H; [reflexivity|]. rewrite H, IHl; auto. Qed.
Lemma lsum_plus {A} f g (l : list A) : lsum (fun x => f x + g x) l = lsum f l + lsum g l.
Proof. induction l; simpl; [ring|rewrite IHl; ring]. Qed.
Lemma lsum_scal {A} c f (l : list A) : lsum (fun x => c * f x) l = c * lsum f l.
Proof. induction l; simpl; [ring|rewrite IHl; ring]. Qed.
Lemma lsum_scal_r {A} c f (l : list A) : lsum (fun x => f x * c) l = lsum f l * c.
Proof. induction l; simpl; [ring|rewrite IHl; ring]. Qed.
Lemma lsum_0 {A} (f : A -> C) (l : list A) : (forall x, In x l -> f x = 0) -> lsum f l = 0.
Proof. induction l; simpl; intros H; [reflexivity|]. rewrite H, IHl; auto. ring. Qed.
Lemma lsum_conj {A} f (l : list A) : Cconj (lsum f l) = lsum (fun x => Cconj (f x)) l.
Proof. induction l; simpl; [apply Cconj_RtoC|now rewrite Cconj_plus, IHl]. Qed.
Lemma lsum_map {A B} (h : A -> B) f (l : list A) : lsum f (map h l) = lsum (fun x => f (h x)) l.
Proof. induction l; simpl; [reflexivity|now rewrite IHl]. Qed.
Lemma lsum_zsum {A} a b (f : Z -> A -> C) (l : list A) :
  lsum (fun x => zsum a b (fun k => f k x)) l = zsum a b (fun k => lsum (f k) l).
Proof.
  induction l; simpl; [symmetry; now apply zsum_0|]. rewrite IHl, <- zsum_plus. reflexivity.
Qed.
Lemma lsum_perm {A} f (l1 l2 : list A) : Permutation l1 l2 -> lsum f l1 = lsum f l2.
Proof. induction 1; simpl; try congruence; ring. Qed.

(* loops with state:   for k in range(a,b): s = step k s   *)
Fixpoint nfor {S} (n : nat) (step : nat -> S -> S) (s : S) : S :=
  match n with O => s | Datatypes.S k => step k (nfor k step s) end.
Definition zfor {S} (a b : Z) (step : Z -> S -> S) (s : S) : S :=
  nfor (Z.to_nat (b - a)) (fun i => step (a + Z.of_nat i)%Z) s.
Lemma zfor_empty {S} a b (step : Z -> S -> S) s : (b <= a)%Z -> zfor a b step s = s.
Proof. intros. unfold zfor. replace (Z.to_nat (b - a)) with O by lia. reflexivity. Qed.
Lemma zfor_last {S} a b (step : Z -> S -> S) s : (a <= b)%Z -> zfor a (b + 1) step s = step b (zfor a b step s).
Proof.
  intros. unfold zfor. replace (Z.to_nat (b + 1 - a)) with (Datatypes.S (Z.to_nat (b - a))) by lia.
  cbn [nfor]. f_equal. lia.
Qed.
(* the loop invariant rule *)
Lemma zfor_ind {S} (P : Z -> S -> Prop) a b step s :
  (a <= b)%Z -> P a s -> (forall k t, (a <= k < b)%Z -> P k t -> P (k + 1)%Z (step k t)) ->
  P b (zfor a b step s).
Proof.
  intros Hab H0 Hs. unfold zfor.
  assert (H : forall n, (n <= Z.to_nat (b - a))%nat ->
     P (a + Z.of_nat n)%Z (nfor n (fun i => step (a + Z.of_nat i)%Z) s)).
  { induction n; intros Hn.
    - simpl. now rewrite Z.add_0_r.
    - cbn [nfor]. replace (a + Z.of_nat (Datatypes.S n))%Z with (a + Z.of_nat n + 1)%Z by lia.
      apply Hs; [lia|]. apply IHn; lia. }
  specialize (H _ (le_n _)). now replace (a + Z.of_nat (Z.to_nat (b - a)))%Z with b in H by lia.
Qed.
Lemma zfor_ext {S} a b (f g : Z -> S -> S) s :
  (forall k t, (a <= k < b)%Z -> f k t = g k t) -> zfor a b f s = zfor a b g s.
Proof.
  intros H. unfold zfor.
  assert (G : forall n, (n <= Z.to_nat (b - a))%nat ->
    nfor n (fun i => f (a + Z.of_nat i)%Z) s = nfor n (fun i => g (a + Z.of_nat i)%Z) s).
  { induction n; intros Hn; [reflexivity|]. cbn [nfor]. rewrite IHn by lia. apply H; lia. }
  now apply G.
Qed.
