(* Towards C81: what each function of Memory.v does to memory, and that it computes the value of its model. *)
From Coq Require Import String List ZArith Reals Lia FunctionalExtensionality.
From Verif Require Import Sums MemRun.
From Verif Require Import Cplx.
Open Scope C_scope.

(* below n nothing is written; the result is an array above n *)
Definition same_below (n : nat) (h h' : heap) : Prop := (top h <= top h')%nat /\ forall l, (l < n)%nat -> buf h' l = buf h l.
Definition own (n : nat) (h : heap) (m : M ref) (x : res marr) : Prop :=
  let (h', o) := m h in same_below n h h' /\
  match o, x with Ok r, Ok q => view h' r = q /\ (n <= loc r < top h')%nat | Err e, Err e' => e = e' | _, _ => False end.
(* only the array r is written, and it then holds q *)
Definition writes (h h' : heap) (r : ref) (q : marr) : Prop := top h' = top h /\ (forall l, l <> loc r -> buf h' l = buf h l) /\ view h' r = q.

Lemma flip_flip q : fliplr (fliplr q) = q.
Proof. unfold fliplr. destruct q as [d f]. cbn [deg at_]. f_equal. apply functional_extensionality. intros i. apply functional_extensionality. intros j. f_equal. lia. Qed.
Lemma view_put h r q : view (put h r q) r = q.
Proof. unfold view, put. cbn [buf]. rewrite Nat.eqb_refl. destruct (flp r); [apply flip_flip|reflexivity]. Qed.
Lemma view_other h h' r : buf h' (loc r) = buf h (loc r) -> view h' r = view h r.
Proof. intros E. unfold view. now rewrite E. Qed.
Lemma put_writes h r q : writes h (put h r q) r q.
Proof. split; [reflexivity|]. split; [|apply view_put]. intros l N. unfold put. cbn [buf]. now rewrite (proj2 (Nat.eqb_neq _ _) N). Qed.
Lemma below_refl n h : same_below n h h. Proof. split; auto. Qed.
Lemma below_trans n h1 h2 h3 : same_below n h1 h2 -> same_below n h2 h3 -> same_below n h1 h3.
Proof. intros [A B] [C D]. split; [lia|]. intros l Hl. now rewrite D, B. Qed.
Lemma below_less n m h h' : (m <= n)%nat -> same_below n h h' -> same_below m h h'.
Proof. intros L [A B]. split; [exact A|]. intros l Hl. apply B. lia. Qed.
Lemma writes_below n h h' r q : writes h h' r q -> (n <= loc r)%nat -> same_below n h h'.
Proof. intros (A & B & _) L. split; [lia|]. intros l Hl. apply B. lia. Qed.
Lemma own_less n m h c x : (m <= n)%nat -> own n h c x -> own m h c x.
Proof. unfold own. intros L. destruct (c h) as [h' o]. intros [A B]. split; [now apply (below_less n)|]. destruct o, x; try exact B. destruct B as [B1 B2]. split; [exact B1|lia]. Qed.

(* ---- sequences ---- *)
Lemma own_seq n h m x k f : own n h m x ->
  (forall h' r q, same_below n h h' -> (n <= loc r < top h')%nat -> view h' r = q -> x = Ok q -> own n h' (k r) (f q)) -> own n h (andthen m k) (bind x f).
Proof.
  unfold own, andthen. destruct (m h) as [h' o]. intros [A B] H. destruct o as [r|e], x as [q|e']; try contradiction; cbn [bind].
  - destruct B as [B1 B2]. specialize (H h' r q A B2 B1 eq_refl). destruct (k r h') as [h'' o]. destruct H as [C D]. split; [now apply (below_trans n h h')|exact D].
  - split; [exact A|exact B].
Qed.
Lemma own_lift {A} n h (y : res A) k f : (forall a, y = Ok a -> own n h (k a) (f a)) -> own n h (andthen (lift y) k) (bind y f).
Proof. intros H. unfold own, andthen, lift. destruct y as [a|e]; cbn [bind]; [apply (H a eq_refl)|split; [apply below_refl|reflexivity]]. Qed.
Lemma own_load n h r k x : own n h (k (view h r)) x -> own n h (andthen (load r) k) x.
Proof. exact (fun H => H). Qed.
Lemma own_ret n h r q : (n <= loc r < top h)%nat -> view h r = q -> own n h (ret r) (Ok q).
Proof. intros L E. split; [apply below_refl|]. now split. Qed.
Lemma own_err n h e : own n h (lift (Err e)) (Err e).
Proof. split; [apply below_refl|reflexivity]. Qed.
(* a new array *)
Definition grown (h : heap) (q : marr) : heap := mkh (S (top h)) (fun l => if Nat.eqb l (top h) then q else buf h l).
Lemma grown_below h q : same_below (top h) h (grown h q).
Proof. split; [cbn; lia|]. intros l Hl. cbn. now rewrite (proj2 (Nat.eqb_neq _ _)) by lia. Qed.
Lemma view_grown h q r : (loc r < top h)%nat -> view (grown h q) r = view h r.
Proof. intros L. apply view_other. now apply (proj2 (grown_below h q)). Qed.
Lemma view_new h q : view (grown h q) (mkref (top h) false) = q.
Proof. unfold view. cbn. now rewrite Nat.eqb_refl. Qed.
Lemma own_alloc n h q k x : (n <= top h)%nat -> own n (grown h q) (k (mkref (top h) false)) x -> own n h (andthen (alloc q) k) x.
Proof.
  intros L. unfold own, andthen, alloc. fold (grown h q). destruct (k (mkref (top h) false) (grown h q)) as [h' o]. intros [A B]. split; [|exact B].
  apply (below_trans n h (grown h q)); [|exact A]. apply (below_less (top h)); [exact L|apply grown_below].
Qed.
Lemma own_copy n h r k x : (n <= top h)%nat -> own n (grown h (view h r)) (k (mkref (top h) false)) x -> own n h (andthen (np_copy r) k) x.
Proof. intros L H. exact (own_alloc n h (view h r) k x L H). Qed.
Lemma own_np_copy n h r : (n <= top h)%nat -> own n h (np_copy r) (Ok (view h r)).
Proof. intros L. change (np_copy r) with (andthen (load r) (fun q => alloc q)). apply own_load. split; [apply (below_less (top h)); [exact L|apply grown_below]|]. split; [apply view_new|]. cbn. lia. Qed.
(* statements that write one array *)
Lemma own_writes n h m r k q x : (exists h', m h = (h', Ok tt) /\ writes h h' r q) -> (n <= loc r)%nat ->
  (forall h', writes h h' r q -> own n h' (k tt) x) -> own n h (andthen m k) x.
Proof.
  intros (h' & E & W) L H. unfold own, andthen. rewrite E. specialize (H h' W). unfold own in H. destruct (k tt h') as [h'' o]. destruct H as [A B]. split; [|exact B].
  apply (below_trans n h h'); [|exact A]. now apply (writes_below n h h' r q).
Qed.
Lemma writes_trans h h1 h2 r q1 q2 : writes h h1 r q1 -> writes h1 h2 r q2 -> writes h h2 r q2.
Proof. intros (A1 & B1 & _) (A2 & B2 & C2). split; [congruence|]. split; [|exact C2]. intros l N. now rewrite B2, B1. Qed.
Lemma writes_view h h' r q s : writes h h' r q -> loc s <> loc r -> view h' s = view h s.
Proof. intros (_ & B & _) N. apply view_other. now apply B. Qed.
(* loops whose body rewrites the array new, reading the array r *)
Lemma loop_writes (r new : ref) (g : Z -> marr -> marr -> marr) body a b h : loc r <> loc new ->
  (forall k h, exists h', body k h = (h', Ok tt) /\ writes h h' new (g k (view h r) (view h new))) ->
  exists h', mfor a b body h = (h', Ok tt) /\ writes h h' new (zfor a b (fun k n => g k (view h r) n) (view h new)).
Proof.
  intros N HB. unfold mfor. destruct (Z_le_gt_dec a b) as [L|L].
  - assert (Z := zfor_ind (fun k m => exists h', m h = (h', Ok tt) /\ (a <= k)%Z /\ writes h h' new (zfor a k (fun k n => g k (view h r) n) (view h new))) a b (fun k m => andthen m (fun _ => body k)) (ret tt) L).
    destruct Z as (h' & E & _ & W).
    + exists h. split; [reflexivity|]. split; [lia|]. rewrite zfor_empty by lia. split; [reflexivity|]. now split.
    + intros k m Hk (h1 & E & La & W). destruct (HB k h1) as (h2 & E2 & W2). exists h2. unfold andthen. rewrite E. split; [exact E2|]. split; [lia|].
      rewrite zfor_last by lia. destruct W as (W1 & W1b & W1c). rewrite W1c, (view_other h h1 r) in W2 by (now apply W1b). apply (writes_trans h h1 h2 new _ _ (conj W1 (conj W1b W1c)) W2).
    + exists h'. split; [exact E|exact W].
  - rewrite !zfor_empty by lia. exists h. split; [reflexivity|]. split; [reflexivity|]. now split.
Qed.

(* ---- rotations.py ---- *)
Lemma row_dot_writes D r k new h : exists h', row_dot D r k new h = (h', Ok tt) /\ writes h h' new (put_dot D (view h r) k (view h new)).
Proof. eexists. split; [reflexivity|apply put_writes]. Qed.
Lemma own_rows n h r new D a b q k x : (loc r <> loc new) -> (n <= loc new)%nat -> view h r = q ->
  (forall h', writes h h' new (zfor a b (fun k qn => put_dot (D k) q k qn) (view h new)) -> own n h' (k tt) x) ->
  own n h (andthen (mfor a b (fun k => row_dot (D k) r k new)) k) x.
Proof.
  intros N L E H. apply (own_writes n h _ new k (zfor a b (fun k qn => put_dot (D k) q k qn) (view h new))); [|exact L|exact H].
  subst q. apply (loop_writes r new (fun k q qn => put_dot (D k) q k qn)); [exact N|]. intros j h0. apply row_dot_writes.
Qed.
Lemma writes_ret n h h' new q : writes h h' new q -> (n <= loc new < top h)%nat -> own n h' (ret new) (Ok q).
Proof. intros (A & _ & C) L. apply own_ret; [lia|exact C]. Qed.
Lemma own_rotate n h r a b c : (loc r < top h)%nat -> (n <= top h)%nat -> own n h (m_rotate_qlm r a b c) (rotate_qlm (view h r) a b c).
Proof.
  intros L Ln. unfold m_rotate_qlm. apply own_load. apply own_copy; [exact Ln|]. unfold rotate_qlm. apply own_lift. intros ds _.
  apply (own_rows n _ r _ _ _ _ (view h r)); [cbn; lia|exact Ln|apply view_grown, L|]. intros h' W. rewrite view_new in W. apply (writes_ret n _ _ _ _ W). cbn. lia.
Qed.
Lemma own_rotate_Ds n h r ds ct : (loc r < top h)%nat -> (n <= top h)%nat -> own n h (m_rotate_qlm_Ds r ds ct) (Ok (rotate_qlm_Ds (view h r) ds ct)).
Proof.
  intros L Ln. unfold m_rotate_qlm_Ds. apply own_load. apply own_copy; [exact Ln|]. unfold rotate_qlm_Ds. destruct (negb _).
  - apply own_ret; [cbn; lia|apply view_new].
  - apply (own_rows n _ r _ (fun k => if ct then ctrans (mget ds k) else mget ds k) _ _ (view h r)); [cbn; lia|exact Ln|apply view_grown, L|].
    intros h' W. rewrite view_new in W. apply (writes_ret n _ _ _ _ W). cbn. lia.
Qed.
Lemma own_rotate_Ds_right n h r ds ct : (loc r < top h)%nat -> (n <= top h)%nat -> own n h (m_rotate_qlm_Ds_right r ds ct) (Ok (rotate_qlm_Ds_right (view h r) ds ct)).
Proof.
  intros L Ln. unfold m_rotate_qlm_Ds_right. apply own_load. apply own_copy; [exact Ln|]. unfold rotate_qlm_Ds_right. destruct (negb _).
  - apply own_ret; [cbn; lia|apply view_new].
  - apply (own_rows n _ r _ (fun k => ttrans (if ct then ctrans (mget ds k) else mget ds k)) _ _ (view h r)); [cbn; lia|exact Ln|apply view_grown, L|].
    intros h' W. rewrite view_new in W. apply (writes_ret n _ _ _ _ W). cbn. lia.
Qed.

(* ---- translationRecurs.py ---- *)
Lemma col_dot_writes L D r m j new h : exists h', col_dot L D r m j new h = (h', Ok tt) /\ writes h h' new (setcol (view h new) m j (fun i => coldot L m D (view h r) i j)).
Proof. eexists. split; [reflexivity|apply put_writes]. Qed.
Lemma two_cols L D E r m j j' new h : loc r <> loc new -> exists h', andthen (col_dot L D r m j new) (fun _ => col_dot L E r m j' new) h = (h', Ok tt) /\
  writes h h' new (setcol (setcol (view h new) m j (fun i => coldot L m D (view h r) i j)) m j' (fun i => coldot L m E (view h r) i j')).
Proof.
  intros N. destruct (col_dot_writes L D r m j new h) as (h1 & E1 & W1). destruct (col_dot_writes L E r m j' new h1) as (h2 & E2 & W2).
  exists h2. unfold andthen. rewrite E1. split; [exact E2|]. rewrite (writes_view _ _ _ _ r W1 N) in W2. destruct W1 as (A & B & C). rewrite C in W2. exact (writes_trans h h1 h2 new _ _ (conj A (conj B C)) W2).
Qed.
Lemma own_flip n h new q (s : bool) : view h new = q -> (n <= loc new < top h)%nat -> own n h (if s then np_fliplr new else ret new) (Ok (if s then fliplr q else q)).
Proof.
  intros E L. destruct s; [|now apply own_ret]. unfold np_fliplr. apply own_ret; [exact L|]. rewrite <- E. unfold view. cbn [flp loc]. destruct (flp new); cbn [negb]; [now rewrite flip_flip|reflexivity].
Qed.
Lemma own_coax n h r efms s : (loc r < top h)%nat -> (n <= top h)%nat -> own n h (m_apply_trans_mat r efms s) (apply_trans_mat (view h r) efms s).
Proof.
  intros L Ln. unfold m_apply_trans_mat. apply own_load. cbv zeta. unfold apply_trans_mat. destruct (negb _); [apply own_err|]. apply own_alloc; [exact Ln|].
  set (h0 := grown h _). set (new := mkref (top h) false). assert (V : view h0 r = view h r) by (apply view_grown, L). assert (N : loc r <> loc new) by (cbn; lia).
  apply (own_writes n h0 _ new _ _ _ (col_dot_writes _ _ _ _ _ _ _)); [exact Ln|]. intros h1 W1. assert (V1 : view h1 r = view h r) by (rewrite (writes_view _ _ _ _ r W1 N); exact V).
  rewrite V in W1. assert (E0 : view h0 new = zeros (deg (view h r))) by apply view_new. rewrite E0 in W1.
  eapply (own_writes n h1 _ new); [|exact Ln|].
  { apply (loop_writes r new (fun m q a => setcol (setcol a m (deg (view h r) + m) (fun i => coldot (deg (view h r)) m (mget efms m) q i (deg (view h r) + m)%Z))
              m (deg (view h r) - m) (fun i => coldot (deg (view h r)) m (conjm (mget efms m)) q i (deg (view h r) - m)%Z))); [exact N|]. intros k hh. now apply two_cols. }
  intros h2 W2. cbv beta in W2. rewrite V1, (proj2 (proj2 W1)) in W2. apply own_flip; [exact (proj2 (proj2 W2))|]. rewrite (proj1 W2), (proj1 W1). cbn. lia.
Qed.
Lemma own_coax_right n h r efms s : (loc r < top h)%nat -> (n <= top h)%nat -> own n h (m_apply_trans_mat_right r efms s) (apply_trans_mat_right (view h r) efms s).
Proof.
  intros L Ln. unfold m_apply_trans_mat_right. apply own_load. cbv zeta. unfold apply_trans_mat_right. destruct (negb _); [apply own_err|]. apply own_alloc; [exact Ln|].
  set (h0 := grown h _). set (new := mkref (top h) false). assert (V : view h0 r = view h r) by (apply view_grown, L). assert (N : loc r <> loc new) by (cbn; lia).
  apply (own_writes n h0 _ new _ _ _ (col_dot_writes _ _ _ _ _ _ _)); [exact Ln|]. intros h1 W1. assert (V1 : view h1 r = view h r) by (rewrite (writes_view _ _ _ _ r W1 N); exact V).
  rewrite V in W1. assert (E0 : view h0 new = zeros (deg (view h r))) by apply view_new. rewrite E0 in W1.
  eapply (own_writes n h1 _ new); [|exact Ln|].
  { apply (loop_writes r new (fun m q a => setcol (setcol a m (deg (view h r) + m) (fun i => coldot (deg (view h r)) m (ttrans (mget efms m)) q i (deg (view h r) + m)%Z))
              m (deg (view h r) - m) (fun i => coldot (deg (view h r)) m (conjm (ttrans (mget efms m))) q i (deg (view h r) - m)%Z))); [exact N|]. intros k hh. now apply two_cols. }
  intros h2 W2. cbv beta in W2. rewrite V1, (proj2 (proj2 W1)) in W2. apply own_flip; [exact (proj2 (proj2 W2))|]. rewrite (proj1 W2), (proj1 W1). cbn. lia.
Qed.
Lemma own_rec_q n h r v : (loc r < top h)%nat -> (n <= top h)%nat -> own n h (m_rec_translate_qlm r v) (rec_translate_qlm (view h r) v).
Proof.
  intros L Ln. unfold m_rec_translate_qlm. apply own_load. cbv zeta. unfold rec_translate_qlm. cbv zeta. destruct (is0 _); [now apply own_np_copy|]. apply own_lift. intros rr _.
  destruct (on_axis _ _); [now apply own_coax|]. apply own_lift. intros Ds _.
  apply (own_seq n h _ (Ok (rotate_qlm_Ds (view h r) Ds false)) _ (fun q => do qlmp <- apply_trans_mat q rr false; Ok (rotate_qlm_Ds qlmp Ds true))); [now apply own_rotate_Ds|]. intros h1 r1 q1 S1 L1 V1 _. assert (T1 := proj1 S1).
  apply (own_seq n h1 _ (apply_trans_mat q1 rr false) _ (fun q => Ok (rotate_qlm_Ds q Ds true))); [rewrite <- V1; apply own_coax; lia|]. intros h2 r2 q2 S2 L2 V2 _. assert (T2 := proj1 S2). rewrite <- V2. apply own_rotate_Ds; lia.
Qed.
Lemma own_rec_Q n h r v : (loc r < top h)%nat -> (n <= top h)%nat -> own n h (m_rec_translate_Qlmb r v) (rec_translate_Qlmb (view h r) v).
Proof.
  intros L Ln. unfold m_rec_translate_Qlmb. apply own_load. cbv zeta. unfold rec_translate_Qlmb. cbv zeta. destruct (is0 _); [now apply own_np_copy|]. apply own_lift. intros rr _.
  destruct (on_axis _ _); [now apply own_coax|]. apply own_lift. intros Ds _.
  apply (own_seq n h _ (Ok (rotate_qlm_Ds (view h r) Ds false)) _ (fun q => do qlmp <- apply_trans_mat q rr false; Ok (rotate_qlm_Ds qlmp Ds true))); [now apply own_rotate_Ds|]. intros h1 r1 q1 S1 L1 V1 _. assert (T1 := proj1 S1).
  apply (own_seq n h1 _ (apply_trans_mat q1 rr false) _ (fun q => Ok (rotate_qlm_Ds q Ds true))); [rewrite <- V1; apply own_coax; lia|]. intros h2 r2 q2 S2 L2 V2 _. assert (T2 := proj1 S2). rewrite <- V2. apply own_rotate_Ds; lia.
Qed.
Lemma own_rec_q2Q n h r v : (loc r < top h)%nat -> (n <= top h)%nat -> own n h (m_rec_translate_q2Q r v) (rec_translate_q2Q (view h r) v).
Proof.
  intros L Ln. unfold m_rec_translate_q2Q. apply own_load. cbv zeta. unfold rec_translate_q2Q. cbv zeta. destruct (is0 _); [now apply own_np_copy|]. apply own_lift. intros rr _.
  destruct (on_axis _ _); [now apply own_coax|]. apply own_lift. intros Ds _.
  apply (own_seq n h _ (Ok (rotate_qlm_Ds (view h r) Ds false)) _ (fun q => do qlmp <- apply_trans_mat q rr true; do Ds2 <- wignerDl (deg (view h r)) (tphi v) (- ttheta v) (tphi v); Ok (rotate_qlm_Ds qlmp Ds2 true))); [now apply own_rotate_Ds|]. intros h1 r1 q1 S1 L1 V1 _. assert (T1 := proj1 S1).
  apply (own_seq n h1 _ (apply_trans_mat q1 rr true) _ (fun q => do Ds2 <- wignerDl (deg (view h r)) (tphi v) (- ttheta v) (tphi v); Ok (rotate_qlm_Ds q Ds2 true))); [rewrite <- V1; apply own_coax; lia|]. intros h2 r2 q2 S2 L2 V2 _. assert (T2 := proj1 S2).
  apply own_lift. intros Ds2 _. rewrite <- V2. apply own_rotate_Ds; lia.
Qed.

(* ---- translations.py ---- *)
Lemma row_writes N f r L new h : exists h', m_row N f r L new h = (h', Ok tt) /\ writes h h' new (zfor 0 (L + 1) (fun M a => upd a L (N + M)%Z (f (view h r) L M)) (view h new)).
Proof. eexists. split; [reflexivity|apply put_writes]. Qed.
Lemma row_all_writes N f r L new h : exists h', m_row_all N f r L new h = (h', Ok tt) /\ writes h h' new (zfor (- L) (L + 1) (fun M a => upd a L (N + M)%Z (f (view h r) L M)) (view h new)).
Proof. eexists. split; [reflexivity|apply put_writes]. Qed.
Lemma reflect_parts q : reflect q = halve (plus_arr q (mirror q)). Proof. reflexivity. Qed.
Lemma reflect_runs new h : let h1 := grown h (mirror (view h new)) in let A := plus_arr (view h1 new) (view h1 (mkref (top h) false)) in
  m_reflect new h = (put (put h1 new A) new (halve (view (put h1 new A) new)), Ok tt).
Proof. reflexivity. Qed.
Lemma own_reflect n h new x : (n <= loc new < top h)%nat -> x = reflect (view h new) -> own n h (andthen (m_reflect new) (fun _ => ret new)) (Ok x).
Proof.
  intros L ->. unfold own, andthen. rewrite reflect_runs. cbv zeta. set (h1 := grown h _). unfold ret. rewrite (view_put h1 new).
  assert (B1 : view h1 new = view h new) by (apply view_grown; lia). rewrite B1. assert (B2 : view h1 (mkref (top h) false) = mirror (view h new)) by apply view_new. rewrite B2.
  split; [|split].
  - apply (below_trans n h h1); [apply (below_less (top h)); [lia|apply grown_below]|]. apply (below_trans n h1 (put h1 new (plus_arr (view h new) (mirror (view h new))))); (apply (writes_below n _ _ new _ (put_writes _ new _)); lia).
  - rewrite view_put, reflect_parts. reflexivity.
  - cbn. lia.
Qed.
Lemma own_shift n h r (f : marr -> Z -> Z -> C) : (loc r < top h)%nat -> (n <= top h)%nat ->
  own n h (andthen (load r) (fun q => andthen (alloc (zeros (deg q))) (fun new => andthen (mfor 0 (deg q + 1) (fun L => m_row (deg q) f r L new)) (fun _ => andthen (m_reflect new) (fun _ => ret new)))))
    (Ok (reflect (fill 0 (deg (view h r) + 1) (deg (view h r)) (f (view h r)) (zeros (deg (view h r)))))).
Proof.
  intros L Ln. apply own_load. apply own_alloc; [exact Ln|]. set (h0 := grown h _). set (new := mkref (top h) false). assert (V : view h0 r = view h r) by (apply view_grown, L). assert (N : loc r <> loc new) by (cbn; lia).
  eapply (own_writes n h0 _ new); [|exact Ln|].
  { apply (loop_writes r new (fun L q a => zfor 0 (L + 1) (fun M a => upd a L (deg (view h r) + M)%Z (f q L M)) a)); [exact N|]. intros k hh. apply row_writes. }
  intros h1 W1. cbv beta in W1. rewrite V in W1. unfold h0, new in W1. rewrite view_new in W1. apply own_reflect; [rewrite (proj1 W1); cbn; lia|]. unfold new. now rewrite (proj2 (proj2 W1)).
Qed.
Lemma own_shift_q n h r v : is0 (vnorm v) = false -> (loc r < top h)%nat -> (n <= top h)%nat -> own n h (m_translate_qlm r v) (Ok (translate_qlm (view h r) v)).
Proof. intros Z L Ln. unfold m_translate_qlm, translate_qlm. cbv zeta. rewrite Z. exact (own_shift n h r (qlm_term v) L Ln). Qed.
Lemma own_shift_Q n h r v : is0 (vnorm v) = false -> (loc r < top h)%nat -> (n <= top h)%nat -> own n h (m_translate_Qlmb r v) (Ok (translate_Qlmb (view h r) v)).
Proof. intros Z L Ln. unfold m_translate_Qlmb, translate_Qlmb. cbv zeta. rewrite Z. exact (own_shift n h r (Qlmb_term v) L Ln). Qed.
Lemma own_shift_q2Q n h r v : (loc r < top h)%nat -> (n <= top h)%nat -> own n h (m_translate_q2Q r v) (translate_q2Q (view h r) v).
Proof.
  intros L Ln. unfold m_translate_q2Q, translate_q2Q. cbv zeta. destruct (is0 _); [apply own_err|]. apply own_load. apply own_alloc; [exact Ln|].
  set (h0 := grown h _). set (new := mkref (top h) false). assert (V : view h0 r = view h r) by (apply view_grown, L). assert (N : loc r <> loc new) by (cbn; lia).
  eapply (own_writes n h0 _ new); [|exact Ln|].
  { apply (loop_writes r new (fun L q a => zfor (- L) (L + 1) (fun M a => upd a L (deg (view h r) + M)%Z (q2Q_term v q L M)) a)); [exact N|]. intros k hh. apply row_all_writes. }
  intros h1 W1. cbv beta in W1. rewrite V in W1. unfold h0, new in W1. rewrite view_new in W1. apply own_ret; [rewrite (proj1 W1); cbn; lia|]. unfold new. rewrite (proj2 (proj2 W1)). reflexivity.
Qed.

(* ---- multipoleLib.py ---- *)
Definition as_array (x : emb) : res marr := match x with EArr q' => Ok q' | EZero => Err TypeError end.
Lemma own_embed n h r K : (loc r < top h)%nat -> (n <= top h)%nat -> own n h (m_embed_qlm r K) (as_array (embed_qlm (view h r) K)).
Proof.
  intros L Ln. unfold m_embed_qlm, embed_qlm. apply own_load. cbv zeta. destruct (K <? 0)%Z; [apply own_err|]. destruct (K <? deg (view h r))%Z.
  - apply own_alloc; [exact Ln|]. apply own_load. rewrite (view_grown h _ r L). cbn [as_array]. eapply (own_writes n _ _ (mkref (top h) false)); [eexists; split; [reflexivity|apply put_writes]|exact Ln|].
    intros h' W. apply (writes_ret n _ _ _ _ W). cbn. lia.
  - destruct (K =? deg (view h r))%Z; [now apply own_np_copy|]. apply own_alloc; [exact Ln|]. apply own_load. apply own_load. rewrite (view_grown h _ r L), view_new. cbn [as_array zeros at_].
    eapply (own_writes n _ _ (mkref (top h) false)); [eexists; split; [reflexivity|apply put_writes]|exact Ln|]. intros h' W. apply (writes_ret n _ _ _ _ W). cbn. lia.
Qed.
(* the updates in place inside torque *)
Lemma own_imul n h r b k f : (n <= loc r < top h)%nat -> (forall h' q, writes h h' r q -> imul (view h r) b = Ok q -> own n h' (k tt) (f q)) -> own n h (andthen (m_imul r b) k) (bind (imul (view h r) b) f).
Proof.
  intros L H. unfold own, andthen, m_imul, load, lift, store, andthen. destruct (imul (view h r) b) as [q|e] eqn:E; cbn [bind].
  - specialize (H (put h r q) q (put_writes h r q) eq_refl). unfold own in H. destruct (k tt (put h r q)) as [h' o]. destruct H as [A B]. split; [|exact B].
    apply (below_trans n h (put h r q)); [|exact A]. apply (writes_below n _ _ r q (put_writes _ _ _)). lia.
  - split; [apply below_refl|reflexivity].
Qed.
Definition m_source_rest (Qnew : ref) (minL : Z) (DsR : mats) (rvec : vec) : M ref :=
  let r := vnorm rvec in
  if is0 r then m_rotate_qlm_Ds_right Qnew DsR false
  else if on_axis r rvec then
    act rrms <- lift (transl_newt_z_RR minL r);
    act Q1 <- m_apply_trans_mat_right Qnew rrms false;
    m_rotate_qlm_Ds_right Q1 DsR false
  else
    act Ds <- lift (wignerDl minL (- tphi rvec) (- ttheta rvec) (- tphi rvec));
    act rrms <- lift (transl_newt_z_RR minL r);
    act Q1 <- m_rotate_qlm_Ds_right Qnew Ds true;
    act Q2 <- m_apply_trans_mat_right Q1 rrms false;
    act Q3 <- m_rotate_qlm_Ds_right Q2 Ds false;
    m_rotate_qlm_Ds_right Q3 DsR false.
Definition source_rest (Q0 : marr) (minL : Z) (DsR : mats) (rvec : vec) : res marr :=
  let r := vnorm rvec in
  if is0 r then Ok (rotate_qlm_Ds_right Q0 DsR false)
  else if on_axis r rvec then
    do rrms <- transl_newt_z_RR minL r; do Q1 <- apply_trans_mat_right Q0 rrms false; Ok (rotate_qlm_Ds_right Q1 DsR false)
  else
    do Ds <- wignerDl minL (- tphi rvec) (- ttheta rvec) (- tphi rvec); do rrms <- transl_newt_z_RR minL r;
    do Q2 <- apply_trans_mat_right (rotate_qlm_Ds_right Q0 Ds true) rrms false; Ok (rotate_qlm_Ds_right (rotate_qlm_Ds_right Q2 Ds false) DsR false).
Definition m_test_rest (qnew : ref) (minL : Z) (DsR : mats) (rvec : vec) (io : bool) : M ref :=
  let r := vnorm rvec in
  if is0 r then m_rotate_qlm_Ds_right qnew DsR false
  else if on_axis r rvec then
    act sms <- lift (if io then transl_newt_z_SR minL r else transl_newt_z_SS minL r);
    act q1 <- m_apply_trans_mat_right qnew sms false;
    m_rotate_qlm_Ds_right q1 DsR false
  else
    act Ds <- lift (wignerDl minL (- tphi rvec) (- ttheta rvec) (- tphi rvec));
    act sms <- lift (if io then transl_newt_z_SR minL r else transl_newt_z_SS minL r);
    act Ds2 <- lift (if io then wignerDl minL (tphi rvec) (- ttheta rvec) (tphi rvec) else Ok Ds);
    act q1 <- m_rotate_qlm_Ds_right qnew Ds2 true;
    act q2 <- m_apply_trans_mat_right q1 sms io;
    act q3 <- m_rotate_qlm_Ds_right q2 Ds false;
    m_rotate_qlm_Ds_right q3 DsR false.
Definition test_rest (q0 : marr) (minL : Z) (DsR : mats) (rvec : vec) (io : bool) : res marr :=
  let r := vnorm rvec in
  if is0 r then Ok (rotate_qlm_Ds_right q0 DsR false)
  else if on_axis r rvec then
    do sms <- (if io then transl_newt_z_SR minL r else transl_newt_z_SS minL r); do q1 <- apply_trans_mat_right q0 sms false; Ok (rotate_qlm_Ds_right q1 DsR false)
  else
    do Ds <- wignerDl minL (- tphi rvec) (- ttheta rvec) (- tphi rvec); do sms <- (if io then transl_newt_z_SR minL r else transl_newt_z_SS minL r);
    do Ds2 <- (if io then wignerDl minL (tphi rvec) (- ttheta rvec) (tphi rvec) else Ok Ds);
    do q2 <- apply_trans_mat_right (rotate_qlm_Ds_right q0 Ds2 true) sms io; Ok (rotate_qlm_Ds_right (rotate_qlm_Ds_right q2 Ds false) DsR false).
Lemma own_seq_ok n h m q k x : own n h m (Ok q) ->
  (forall h' r, same_below n h h' -> (n <= loc r < top h')%nat -> view h' r = q -> own n h' (k r) x) -> own n h (andthen m k) x.
Proof. intros A B. apply (own_seq n h m (Ok q) k (fun _ => x) A). intros h' r q' S L V E. injection E as ->. exact (B h' r S L V). Qed.
Lemma own_source n h r K D v : (loc r < top h)%nat -> (n <= top h)%nat -> own n h (m_source_rest r K D v) (source_rest (view h r) K D v).
Proof.
  intros L Ln. unfold m_source_rest, source_rest. cbv zeta. destruct (is0 _); [now apply own_rotate_Ds_right|]. destruct (on_axis _ _).
  - apply own_lift. intros rr _. apply (own_seq n h _ _ _ (fun Q1 => Ok (rotate_qlm_Ds_right Q1 D false)) (own_coax_right n h r rr false L Ln)). intros h1 r1 q1 [T1 _] L1 V1 _. rewrite <- V1. apply own_rotate_Ds_right; lia.
  - apply own_lift. intros Ds _. apply own_lift. intros rr _. apply (own_seq_ok n h _ _ _ _ (own_rotate_Ds_right n h r Ds true L Ln)). intros h1 r1 [T1 _] L1 V1. rewrite <- V1.
    apply (own_seq n h1 _ _ _ (fun Q2 => Ok (rotate_qlm_Ds_right (rotate_qlm_Ds_right Q2 Ds false) D false)) (own_coax_right n h1 r1 rr false (proj2 L1) ltac:(lia))). intros h2 r2 q2 [T2 _] L2 V2 _. rewrite <- V2.
    apply (own_seq_ok n h2 _ _ _ _ (own_rotate_Ds_right n h2 r2 Ds false (proj2 L2) ltac:(lia))). intros h3 r3 [T3 _] L3 V3. rewrite <- V3. apply own_rotate_Ds_right; lia.
Qed.
Lemma own_test n h r K D v io : (loc r < top h)%nat -> (n <= top h)%nat -> own n h (m_test_rest r K D v io) (test_rest (view h r) K D v io).
Proof.
  intros L Ln. unfold m_test_rest, test_rest. cbv zeta. destruct (is0 _); [now apply own_rotate_Ds_right|]. destruct (on_axis _ _).
  - apply own_lift. intros rr _. apply (own_seq n h _ _ _ (fun Q1 => Ok (rotate_qlm_Ds_right Q1 D false)) (own_coax_right n h r rr false L Ln)). intros h1 r1 q1 [T1 _] L1 V1 _. rewrite <- V1. apply own_rotate_Ds_right; lia.
  - apply own_lift. intros Ds _. apply own_lift. intros rr _. apply own_lift. intros Ds2 _. apply (own_seq_ok n h _ _ _ _ (own_rotate_Ds_right n h r Ds2 true L Ln)). intros h1 r1 [T1 _] L1 V1. rewrite <- V1.
    apply (own_seq n h1 _ _ _ (fun Q2 => Ok (rotate_qlm_Ds_right (rotate_qlm_Ds_right Q2 Ds false) D false)) (own_coax_right n h1 r1 rr io (proj2 L1) ltac:(lia))). intros h2 r2 q2 [T2 _] L2 V2 _. rewrite <- V2.
    apply (own_seq_ok n h2 _ _ _ _ (own_rotate_Ds_right n h2 r2 Ds false (proj2 L2) ltac:(lia))). intros h3 r3 [T3 _] L3 V3. rewrite <- V3. apply own_rotate_Ds_right; lia.
Qed.
(* torque returns an array and two vectors *)
Definition own3 (n : nat) (h : heap) (m : M (ref * cvec * cvec)) (x : res (marr * cvec * cvec)) : Prop :=
  let (h', o) := m h in same_below n h h' /\
  match o, x with Ok (r, c, s), Ok (q, c', s') => view h' r = q /\ (n <= loc r < top h')%nat /\ c = c' /\ s = s' | Err e, Err e' => e = e' | _, _ => False end.
Lemma own3_lift {A} n h (y : res A) k f : (forall a, y = Ok a -> own3 n h (k a) (f a)) -> own3 n h (andthen (lift y) k) (bind y f).
Proof. intros H. unfold own3, andthen, lift. destruct y as [a|e]; cbn [bind]; [apply (H a eq_refl)|split; [apply below_refl|reflexivity]]. Qed.
Lemma own3_copy n h r k x : (n <= top h)%nat -> own3 n (grown h (view h r)) (k (mkref (top h) false)) x -> own3 n h (andthen (np_copy r) k) x.
Proof.
  intros L. unfold own3, andthen, np_copy, load, alloc, andthen. fold (grown h (view h r)). destruct (k _ _) as [h' o]. intros [A B]. split; [|exact B].
  apply (below_trans n h (grown h (view h r))); [|exact A]. apply (below_less (top h)); [exact L|apply grown_below].
Qed.
(* the last lines of torque *)
Definition m_close (K : Z) (cnst : R) (a b : ref) : M (ref * cvec * cvec) :=
  act a <- load a; act b <- load b;
  act p <- lift (bmul (cscal (RtoC (- 4 * PI * cnst) * Ci) a) b);
  act nlm <- alloc p; act c <- load nlm; act n <- lift (nc_ns K c); ret (nlm, snd (fst n), snd n).
Lemma nc_ns_fst K c n : nc_ns K c = Ok n -> fst (fst n) = c.
Proof. unfold nc_ns. intros E. apply bind_ok in E. destruct E as (nc & _ & E). apply bind_ok in E. destruct E as (ns & _ & E). injection E as <-. reflexivity. Qed.
Lemma own3_close n h a b K c : (n <= top h)%nat -> own3 n h (m_close K c a b) (do nlm <- bmul (cscal (RtoC (- 4 * PI * c) * Ci) (view h a)) (view h b); nc_ns K nlm).
Proof.
  intros L. unfold m_close. change (own3 n h (andthen (lift (bmul (cscal (RtoC (- 4 * PI * c) * Ci) (view h a)) (view h b))) (fun p => act nlm <- alloc p; act c <- load nlm; act n <- lift (nc_ns K c); ret (nlm, snd (fst n), snd n))) (do nlm <- bmul (cscal (RtoC (- 4 * PI * c) * Ci) (view h a)) (view h b); nc_ns K nlm)).
  apply own3_lift. intros p _. unfold own3, andthen, alloc, load, lift, ret. fold (grown h p). rewrite view_new.
  assert (B : same_below n h (grown h p)) by (apply (below_less (top h)); [exact L|apply grown_below]).
  destruct (nc_ns K p) as [t|e] eqn:E; [|split; [exact B|reflexivity]]. split; [exact B|]. assert (F := nc_ns_fst _ _ _ E). destruct t as [[q c1] c2]. cbn in F. subst q. split; [apply view_new|]. cbn. repeat split; lia.
Qed.
Lemma torque_parts q Q al be ga rv ty k : torque q Q al be ga rv ty k =
  let minL := Z.min (deg q) (deg Q) in let is s := String.eqb ty s in
  do DsR <- (if (is "inner-inner" || is "inner-outer")%string%bool then wignerDl minL al be ga else wignerDl minL (- al) be (- ga));
  (if is "inner-inner"%string then do Q0 <- imul Q (lm_outer minL); do Q1 <- source_rest Q0 minL DsR rv; do nlm <- bmul (cscal (RtoC (- 4 * PI * k) * Ci) q) Q1; nc_ns minL nlm
   else if (is "inner-outer" || is "outer-outer")%string%bool then do q0 <- imul q (lm_outer minL); do q1 <- test_rest q0 minL DsR rv (is "inner-outer"%string); do nlm <- bmul (cscal (RtoC (- 4 * PI * k) * Ci) q1) Q; nc_ns minL nlm
   else Err ValueError).
Proof.
  unfold torque. cbv zeta. destruct (if (_ || _)%bool then _ else _) as [D|e]; cbn [bind]; [|reflexivity].
  destruct (String.eqb ty "inner-inner").
  - destruct (imul Q _) as [Q0|e]; cbn [bind]; [|reflexivity]. unfold source_rest. cbv zeta. destruct (if is0 _ then _ else _) as [Q1|e]; reflexivity.
  - destruct (_ || _)%bool; [|reflexivity]. destruct (imul q _) as [q0|e]; cbn [bind]; [|reflexivity]. unfold test_rest. cbv zeta. destruct (if is0 _ then _ else _) as [Q1|e]; reflexivity.
Qed.
Lemma own3_step n h (m : M ref) x (k : ref -> M (ref * cvec * cvec)) f b : own b h m x -> (n <= b)%nat ->
  (forall h' r q, same_below b h h' -> (b <= loc r < top h')%nat -> view h' r = q -> own3 n h' (k r) (f q)) -> own3 n h (andthen m k) (bind x f).
Proof.
  unfold own, own3, andthen. intros A L H. destruct (m h) as [h' o]. destruct A as [A B]. destruct o as [r|e], x as [q|e']; try contradiction; cbn [bind].
  - destruct B as [B1 B2]. specialize (H h' r q A B2 B1). destruct (k r h') as [h'' o]. destruct H as [C D]. split; [apply (below_trans n h h'); [now apply (below_less b)|exact C]|exact D].
  - split; [now apply (below_less b)|exact B].
Qed.
Lemma own3_imul n h r b (m : M ref) (k : ref -> M (ref * cvec * cvec)) f x : (n <= loc r)%nat -> (loc r < top h)%nat ->
  (forall h' q, writes h h' r q -> own3 n h' (andthen m k) (f q)) -> x = (do q <- imul (view h r) b; f q) ->
  own3 n h (andthen (andthen (m_imul r b) (fun _ => m)) k) x.
Proof.
  intros L Lr H ->. unfold m_imul, own3, andthen, load, lift, store. destruct (imul (view h r) b) as [q|e] eqn:E; cbn [bind].
  - specialize (H (put h r q) q (put_writes h r q)). unfold own3, andthen in H. destruct (m (put h r q)) as [h' [r'|e]].
    + destruct (k r' h') as [h'' o]. destruct H as [A B]. split; [|exact B]. apply (below_trans n h (put h r q)); [|exact A]. apply (writes_below n _ _ r q (put_writes _ _ _) L).
    + destruct H as [A B]. split; [|exact B]. apply (below_trans n h (put h r q)); [|exact A]. apply (writes_below n _ _ r q (put_writes _ _ _) L).
  - split; [apply below_refl|reflexivity].
Qed.
Lemma andthen_assoc {A B} (m : M A) (k : A -> M B) {D} (l : B -> M D) h : andthen (andthen m k) l h = andthen m (fun a => andthen (k a) l) h.
Proof. unfold andthen. destruct (m h) as [h' [a|e]]; reflexivity. Qed.
Lemma own3_torque n h r1 r2 al be ga rv ty k : (loc r1 < top h)%nat -> (loc r2 < top h)%nat -> (n <= top h)%nat ->
  own3 n h (m_torque r1 r2 al be ga rv ty k) (torque (view h r1) (view h r2) al be ga rv ty k).
Proof.
  intros L1 L2 Ln. rewrite torque_parts. cbv zeta. set (K := Z.min (deg (view h r1)) (deg (view h r2))).
  set (tail := fun (DsR : mats) (qnew Qnew : ref) => andthen (if String.eqb ty "inner-inner" then andthen (m_torque_source Qnew K DsR rv) (fun Q1 => ret (qnew, Q1))
     else if (String.eqb ty "inner-outer" || String.eqb ty "outer-outer")%bool then andthen (m_torque_test qnew K DsR rv (String.eqb ty "inner-outer")) (fun q1 => ret (q1, Qnew)) else lift (Err ValueError))
     (fun qQ => m_close K k (fst qQ) (snd qQ))).
  change (own3 n h (andthen (lift (if (String.eqb ty "inner-inner" || String.eqb ty "inner-outer")%bool then wignerDl K al be ga else wignerDl K (- al) be (- ga)))
    (fun DsR => andthen (np_copy r1) (fun qnew => andthen (np_copy r2) (fun Qnew => tail DsR qnew Qnew))))
    (do DsR <- (if (String.eqb ty "inner-inner" || String.eqb ty "inner-outer")%bool then wignerDl K al be ga else wignerDl K (- al) be (- ga));
  (if String.eqb ty "inner-inner" then do Q0 <- imul (view h r2) (lm_outer K); do Q1 <- source_rest Q0 K DsR rv; do nlm <- bmul (cscal (RtoC (- 4 * PI * k) * Ci) (view h r1)) Q1; nc_ns K nlm
   else if (String.eqb ty "inner-outer" || String.eqb ty "outer-outer")%bool then do q0 <- imul (view h r1) (lm_outer K); do q1 <- test_rest q0 K DsR rv (String.eqb ty "inner-outer"); do nlm <- bmul (cscal (RtoC (- 4 * PI * k) * Ci) q1) (view h r2); nc_ns K nlm
   else Err ValueError))).
  apply own3_lift. intros D _. apply own3_copy; [exact Ln|]. set (h1 := grown h (view h r1)). apply own3_copy; [cbn; lia|]. set (h2 := grown h1 (view h1 r2)).
  set (qn := mkref (top h) false). set (Qn := mkref (top h1) false).
  assert (Vq : view h2 qn = view h r1) by (unfold h2; rewrite view_grown by (cbn; lia); apply view_new).
  assert (VQ : view h2 Qn = view h r2) by (unfold h2, Qn; rewrite view_new; now apply view_grown).
  rewrite <- Vq, <- VQ. unfold tail. clear tail.
  destruct (String.eqb ty "inner-inner").
  - assert (G : own3 n h2 (andthen (m_torque_source Qn K D rv) (fun Q1 => m_close K k qn Q1)) (do Q0 <- imul (view h2 Qn) (lm_outer K); do Q1 <- source_rest Q0 K D rv; do nlm <- bmul (cscal (RtoC (- 4 * PI * k) * Ci) (view h2 qn)) Q1; nc_ns K nlm)).
    { change (m_torque_source Qn K D rv) with (andthen (m_imul Qn (lm_outer K)) (fun _ => m_source_rest Qn K D rv)).
      apply (own3_imul n h2 Qn _ _ _ (fun Q0 => do Q1 <- source_rest Q0 K D rv; do nlm <- bmul (cscal (RtoC (- 4 * PI * k) * Ci) (view h2 qn)) Q1; nc_ns K nlm)); [cbn; lia|cbn; lia| |reflexivity].
      intros h3 q W. assert (Vq3 : view h3 qn = view h2 qn) by (apply (writes_view _ _ _ _ qn W); cbn; lia). assert (T3 := proj1 W). cbn in T3.
      apply (own3_step n h3 _ _ _ _ (top h3)); [rewrite <- (proj2 (proj2 W)); apply own_source; cbn; lia|lia|].
      intros h4 r Q1 B4 L4 V4. assert (Vq4 : view h4 qn = view h3 qn) by (apply view_other, (proj2 B4); cbn; lia). rewrite <- Vq3, <- Vq4, <- V4. apply own3_close. destruct B4 as [B4 _]. lia. }
    unfold own3 in *. rewrite andthen_assoc. exact G.
  - destruct (_ || _)%bool; [|split; [apply below_refl|reflexivity]].
    assert (G : own3 n h2 (andthen (m_torque_test qn K D rv (String.eqb ty "inner-outer")) (fun q1 => m_close K k q1 Qn)) (do q0 <- imul (view h2 qn) (lm_outer K); do q1 <- test_rest q0 K D rv (String.eqb ty "inner-outer"); do nlm <- bmul (cscal (RtoC (- 4 * PI * k) * Ci) q1) (view h2 Qn); nc_ns K nlm)).
    { change (m_torque_test qn K D rv (String.eqb ty "inner-outer")) with (andthen (m_imul qn (lm_outer K)) (fun _ => m_test_rest qn K D rv (String.eqb ty "inner-outer"))).
      apply (own3_imul n h2 qn _ _ _ (fun q0 => do q1 <- test_rest q0 K D rv (String.eqb ty "inner-outer"); do nlm <- bmul (cscal (RtoC (- 4 * PI * k) * Ci) q1) (view h2 Qn); nc_ns K nlm)); [cbn; lia|cbn; lia| |reflexivity].
      intros h3 q W. assert (VQ3 : view h3 Qn = view h2 Qn) by (apply (writes_view _ _ _ _ Qn W); cbn; lia). assert (T3 := proj1 W). cbn in T3.
      apply (own3_step n h3 _ _ _ _ (top h3)); [rewrite <- (proj2 (proj2 W)); apply own_test; cbn; lia|lia|].
      intros h4 r Q1 B4 L4 V4. assert (VQ4 : view h4 Qn = view h3 Qn) by (apply view_other, (proj2 B4); cbn; lia). rewrite <- VQ3, <- VQ4, <- V4. apply own3_close. destruct B4 as [B4 _]. lia. }
    unfold own3 in *. rewrite andthen_assoc. exact G.
Qed.
(* every call *)
Lemma own_runs n h f r : gives_back f = false -> (loc r < top h)%nat -> (n <= top h)%nat -> own n h (runs f r) (value f (view h r)).
Proof.
  intros G L Ln. destruct f; cbn [runs value gives_back] in *.
  - now apply own_rotate. - now apply own_rotate_Ds. - now apply own_rotate_Ds_right. - now apply own_coax. - now apply own_coax_right. - now apply own_rec_q. - now apply own_rec_Q. - now apply own_rec_q2Q.
  - now apply own_shift_q. - now apply own_shift_Q. - now apply own_shift_q2Q. - now apply own_embed. - now apply own_np_copy.
Qed.
Lemma back_runs h f r : gives_back f = true -> runs f r h = (h, Ok r) /\ value f (view h r) = Ok (view h r).
Proof.
  destruct f; cbn [gives_back]; try discriminate; intros Z; cbn [runs value]; unfold m_translate_qlm, m_translate_Qlmb, translate_qlm, translate_Qlmb; cbv zeta; rewrite Z; split; reflexivity.
Qed.
