(* C81: memory.  The functions on moment arrays work on arrays that may be written in place and may have several names;
   what they write, what they hand back, and when programs may be read as if arrays were values. *)
From Coq Require Import String List ZArith Reals Lia Lra.
From Verif Require Import Sums MemRun MemProofs.
From Verif Require Import TranslationsProofs.
From Verif Require Import Cplx.
Import ListNotations.
Open Scope C_scope.

(* ---- single calls: arguments and everything else in memory are left as they were, also when the call raises; the value
   is that of the model; the result is an array that did not exist before, except for translations.translate_qlm and
   translate_Qlmb by the zero vector, which hand back the argument itself ---- *)
Theorem C81_calls : forall f h r, (loc r < top h)%nat -> let (h', o) := runs f r h in
  (forall s, (loc s < top h)%nat -> view h' s = view h s) /\
  match o with
  | Ok r' => value f (view h r) = Ok (view h' r') /\ (loc r' < top h')%nat /\ (if gives_back f then r' = r else (top h <= loc r')%nat)
  | Err e => value f (view h r) = Err e
  end.
Proof.
  intros f h r L. destruct (gives_back f) eqn:G.
  - destruct (back_runs h f r G) as [E V]. rewrite E. split; [reflexivity|]. split; [exact V|]. now split.
  - assert (O := own_runs (top h) h f r G L (le_n _)). unfold own in O. destruct (runs f r h) as [h' o]. destruct O as [B O].
    split; [intros s Ls; apply view_other; now apply (proj2 B)|]. destruct o as [r'|e], (value f (view h r)) as [q|e']; try contradiction; [|now f_equal]. destruct O as [O1 O2]. split; [now rewrite O1|]. split; [exact (proj2 O2)|exact (proj1 O2)].
Qed.
Theorem C81_torque : forall h r1 r2 alpha beta gamma rvec trans_type cnst, (loc r1 < top h)%nat -> (loc r2 < top h)%nat ->
  let (h', o) := m_torque r1 r2 alpha beta gamma rvec trans_type cnst h in
  (forall s, (loc s < top h)%nat -> view h' s = view h s) /\
  match o with
  | Ok (r', nc, ns) => torque (view h r1) (view h r2) alpha beta gamma rvec trans_type cnst = Ok (view h' r', nc, ns) /\ (top h <= loc r' < top h')%nat
  | Err e => torque (view h r1) (view h r2) alpha beta gamma rvec trans_type cnst = Err e
  end.
Proof.
  intros h r1 r2 al be ga rv ty k L1 L2. assert (O := own3_torque (top h) h r1 r2 al be ga rv ty k L1 L2 (le_n _)). unfold own3 in O. destruct (m_torque _ _ _ _ _ _ _ _ h) as [h' o]. destruct O as [B O].
  split; [intros s Ls; apply view_other; now apply (proj2 B)|]. destruct o as [[[r' c] s]|e], (torque _ _ _ _ _ _ _ _) as [[[q c'] s']|e']; try contradiction; [|now f_equal]. destruct O as (O1 & O2 & -> & ->). split; [now rewrite O1|exact O2].
Qed.

(* ---- histories ---- *)
Definition agree (h : heap) (e : names) (w : world) : Prop :=
  (forall x, val w x = option_map (view h) (e x)) /\
  (forall x r, e x = Some r -> (loc r < top h)%nat /\ (label w x < next_label w)%nat) /\
  (forall x y r s, e x = Some r -> e y = Some s -> (label w x = label w y <-> r = s) /\ (loc r = loc s -> r = s)).
Lemma agree_fresh h e w h' r q x : agree h e w -> same_below (top h) h h' -> view h' r = q -> (top h <= loc r < top h')%nat -> agree h' (bindn e x r) (fresh w x q).
Proof.
  intros (A & B & C) S V L. assert (T := proj1 S). split; [|split].
  - intros y. unfold bindn, fresh. cbn [val]. destruct (Nat.eqb y x); [cbn; now rewrite V|]. rewrite A. destruct (e y) as [s|] eqn:E; [|reflexivity]. cbn. f_equal. symmetry. apply view_other, (proj2 S), (B y s E).
  - intros y s. unfold bindn, fresh. cbn [label next_label]. destruct (Nat.eqb y x); [intros [= <-]; lia|]. intros E. destruct (B y s E). lia.
  - intros y z s t. unfold bindn, fresh. cbn [label]. destruct (Nat.eqb y x), (Nat.eqb z x).
    + intros [= <-] [= <-]. tauto.
    + intros [= <-] E. destruct (B z t E) as [B1 B2]. split; [split; [lia|intros ->; lia]|lia].
    + intros E [= <-]. destruct (B y s E) as [B1 B2]. split; [split; [lia|intros ->; lia]|lia].
    + intros E F. exact (C y z s t E F).
Qed.
Lemma agree_share h e w x y r : agree h e w -> e y = Some r -> agree h (bindn e x r) (share w x y).
Proof.
  intros (A & B & C) E. split; [|split].
  - intros z. unfold bindn, share. cbn [val]. destruct (Nat.eqb z x); [rewrite A, E; reflexivity|apply A].
  - intros z s. unfold bindn, share. cbn [label next_label]. destruct (Nat.eqb z x); [intros [= <-]; now apply B|]. now apply B.
  - intros a b s t. unfold bindn, share. cbn [label]. destruct (Nat.eqb a x), (Nat.eqb b x).
    + intros [= <-] [= <-]. tauto.
    + intros [= <-] F. exact (C y b r t E F).
    + intros F [= <-]. exact (C a y s r F E).
    + intros F G. exact (C a b s t F G).
Qed.
Lemma agree_change h e w x r q : agree h e w -> e x = Some r -> agree (put h r q) e (change w x q).
Proof.
  intros (A & B & C) E. split; [|split].
  - intros y. unfold change. cbn [val]. destruct (e y) as [s|] eqn:F; [|rewrite A, F; now destruct (Nat.eqb _ _)]. destruct (C y x s r F E) as [C1 C2]. destruct (Nat.eqb_spec (label w y) (label w x)) as [N|N].
    + apply C1 in N. subst s. rewrite A, F. cbn [option_map]. now rewrite view_put.
    + rewrite A, F. cbn [option_map]. f_equal. symmetry. apply view_other. unfold put. cbn [buf]. destruct (Nat.eqb_spec (loc s) (loc r)) as [M|M]; [|reflexivity]. exfalso. apply N, C1, C2, M.
  - intros y s F. exact (B y s F).
  - intros y z s t F G. exact (C y z s t F G).
Qed.
Lemma agree_below h e w h' : agree h e w -> same_below (top h) h h' -> agree h' e w.
Proof.
  intros (A & B & C) S. assert (T := proj1 S). split; [|split]; [|intros y s E; destruct (B y s E); lia|exact C].
  intros y. rewrite A. destruct (e y) as [s|] eqn:E; [|reflexivity]. cbn. f_equal. symmetry. apply view_other, (proj2 S), (B y s E).
Qed.
Lemma get_lookup h e w x : agree h e w -> match lookup e x, get w x with Ok r, Ok q => e x = Some r /\ q = view h r | Err a, Err b => a = b | _, _ => False end.
Proof. intros (A & _). unfold lookup, get. rewrite A. destruct (e x) as [r|]; cbn; auto. Qed.
Lemma agree_step h e w s : agree h e w -> let '(h', e', x) := step h e s in let (w', x') := means w s in agree h' e' w' /\ x = x'.
Proof.
  intros A. destruct s as [x q|x f y|x y z al be ga rv ty k|x y|x i j v|x c|x y|x y]; unfold step, means, exec, andthen, lift, ret, alloc, load, store.
  - cbn [done]. split; [|reflexivity]. apply (agree_fresh h e w (grown h q) (mkref (top h) false) q x A (grown_below h q) (view_new h q)). cbn. lia.
  - assert (G := get_lookup h e w y A). destruct (lookup e y) as [r|a], (get w y) as [q|b]; try contradiction; cbn [bind]; [|subst b; now split]. destruct G as [E ->]. assert (L := proj1 (proj1 (proj2 A) y r E)).
    destruct (gives_back f) eqn:GB.
    + destruct (back_runs h f r GB) as [R V]. rewrite R, V. cbn [bind done]. split; [|reflexivity]. now apply agree_share.
    + assert (O := own_runs (top h) h f r GB L (le_n _)). unfold own in O. destruct (runs f r h) as [h' o]. destruct O as [B O]. destruct o as [r'|e1], (value f (view h r)) as [q|e2]; try contradiction; cbn [bind done].
      * split; [|reflexivity]. destruct O as [O1 O2]. now apply (agree_fresh h e w h').
      * subst e2. split; [|reflexivity]. now apply (agree_below h e w h').
  - assert (G := get_lookup h e w y A). destruct (lookup e y) as [r|a], (get w y) as [q|b]; try contradiction; cbn [bind]; [|subst b; now split]. destruct G as [E ->]. assert (L := proj1 (proj1 (proj2 A) y r E)).
    assert (G := get_lookup h e w z A). destruct (lookup e z) as [r2|a], (get w z) as [q2|b]; try contradiction; cbn [bind]; [|subst b; now split]. destruct G as [E2 ->]. assert (L2 := proj1 (proj1 (proj2 A) z r2 E2)).
    assert (O := own3_torque (top h) h r r2 al be ga rv ty k L L2 (le_n _)). unfold own3 in O. destruct (m_torque _ _ _ _ _ _ _ _ h) as [h' o]. destruct O as [B O].
    destruct o as [[[r' c] s]|e1], (torque _ _ _ _ _ _ _ _) as [[[q c'] s']|e2]; try contradiction; cbn [bind done].
    + destruct O as (O1 & O2 & _ & _). split; [|reflexivity]. cbn [fst]. now apply (agree_fresh h e w h').
    + subst e2. split; [|reflexivity]. now apply (agree_below h e w h').
  - assert (G := get_lookup h e w y A). destruct (lookup e y) as [r|a], (get w y) as [q|b]; try contradiction; cbn [bind done]; [|subst b; now split]. destruct G as [E ->]. split; [|reflexivity]. now apply agree_share.
  - assert (G := get_lookup h e w x A). destruct (lookup e x) as [r|a], (get w x) as [q|b]; try contradiction; cbn [bind done]; [|subst b; now split]. destruct G as [E ->]. split; [|reflexivity]. now apply agree_change.
  - assert (G := get_lookup h e w x A). destruct (lookup e x) as [r|a], (get w x) as [q|b]; try contradiction; cbn [bind done]; [|subst b; now split]. destruct G as [E ->]. split; [|reflexivity]. now apply agree_change.
  - assert (G := get_lookup h e w x A). destruct (lookup e x) as [r|a], (get w x) as [q|b]; try contradiction; cbn [bind done]; [|subst b; now split]. destruct G as [E ->].
    assert (G := get_lookup h e w y A). destruct (lookup e y) as [r2|a], (get w y) as [q2|b]; try contradiction; cbn [bind done]; [|subst b; now split]. destruct G as [E2 ->].
    destruct (iplus _ _ _) as [q|e1]; cbn [bind done]; [|now split]. split; [|reflexivity]. now apply agree_change.
  - assert (G := get_lookup h e w x A). destruct (lookup e x) as [r|a], (get w x) as [q|b]; try contradiction; cbn [bind done]; [|subst b; now split]. destruct G as [E ->].
    assert (G := get_lookup h e w y A). destruct (lookup e y) as [r2|a], (get w y) as [q2|b]; try contradiction; cbn [bind done]; [|subst b; now split]. destruct G as [E2 ->].
    destruct (iplus _ _ _) as [q|e1]; cbn [bind done]; [|now split]. split; [|reflexivity]. now apply agree_change.
Qed.
Lemma agree_run p : forall h e w, agree h e w -> let '(h', e', xs) := run h e p in let (w', xs') := means_all w p in agree h' e' w' /\ xs = xs'.
Proof.
  induction p as [|s p IH]; intros h e w A; cbn [run means_all]; [now split|]. assert (S := agree_step h e w s A). destruct (step h e s) as [[h1 e1] x]. destruct (means w s) as [w1 x']. destruct S as [A1 ->].
  assert (I := IH h1 e1 w1 A1). destruct (run h1 e1 p) as [[h2 e2] xs]. destruct (means_all w1 p) as [w2 xs']. destruct I as [A2 ->]. now split.
Qed.
Lemma agree_empty : agree empty no_names nothing.
Proof. split; [reflexivity|]. split; discriminate. Qed.
(* any program, started with nothing bound: memory and labels tell the same story *)
Theorem C81_history : forall p, let '(h, e, raised) := run empty no_names p in let (w, raised') := means_all nothing p in
  raised = raised' /\
  (forall x, val w x = option_map (view h) (e x)) /\
  (forall x y r s, e x = Some r -> e y = Some s -> (label w x = label w y <-> loc r = loc s)).
Proof.
  intros p. assert (R := agree_run p empty no_names nothing agree_empty). destruct (run empty no_names p) as [[h e] xs]. destruct (means_all nothing p) as [w xs']. destruct R as [(A & B & C) E].
  split; [exact E|]. split; [exact A|]. intros x y r s F G. destruct (C x y r s F G) as [C1 C2]. split; [intros N; apply C1 in N; now rewrite N|intros N; apply C1; now apply C2].
Qed.

(* ---- when arrays may be thought of as values ---- *)
Definition single (w : world) (p : plain) : Prop :=
  (forall x, val w x = p x) /\ (forall x, val w x <> None -> (label w x < next_label w)%nat) /\ (forall x y, val w x <> None -> val w y <> None -> label w x = label w y -> x = y).
Lemma single_fresh w p x q : single w p -> single (fresh w x q) (set p x q).
Proof.
  intros (A & B & C). split; [|split].
  - intros y. unfold fresh, set. cbn [val]. destruct (Nat.eqb y x); [reflexivity|apply A].
  - intros y. unfold fresh. cbn [val label next_label]. destruct (Nat.eqb y x); [lia|]. intros N. specialize (B y N). lia.
  - intros y z. unfold fresh. cbn [val label]. destruct (Nat.eqb_spec y x), (Nat.eqb_spec z x); intros N1 N2 E; [congruence| | |now apply C].
    + specialize (B z N2). lia. + specialize (B y N1). lia.
Qed.
Lemma single_change w p x q : single w p -> val w x <> None -> single (change w x q) (set p x q).
Proof.
  intros (A & B & C) Nx. assert (D : forall y, val (change w x q) y <> None -> val w y <> None). { intros y. unfold change. cbn [val]. destruct (Nat.eqb _ _); [|auto]. destruct (val w y); [discriminate|auto]. }
  split; [|split].
  - intros y. unfold change, set. cbn [val]. destruct (val w y) as [qy|] eqn:Ey.
    + destruct (Nat.eqb_spec (label w y) (label w x)) as [E|E], (Nat.eqb_spec y x) as [F|F]; [reflexivity| | |now rewrite <- A].
      * exfalso. apply F. apply C; [congruence|exact Nx|exact E]. * subst y. contradiction.
    + assert (F : y <> x) by (intros ->; contradiction). rewrite (proj2 (Nat.eqb_neq y x) F), <- A, Ey. now destruct (Nat.eqb _ _).
  - intros y N. exact (B y (D y N)).
  - intros y z N1 N2 E. exact (C y z (D y N1) (D z N2) E).
Qed.
Lemma single_share w p x : single w p -> single (share w x x) p.
Proof.
  intros (A & B & C). assert (V : forall y, val (share w x x) y = val w y) by (intros y; unfold share; cbn [val]; destruct (Nat.eqb_spec y x); congruence).
  assert (L : forall y, label (share w x x) y = label w y) by (intros y; unfold share; cbn [label]; destruct (Nat.eqb_spec y x); congruence).
  split; [|split]; [intros y; now rewrite V|intros y; rewrite V, L; apply B|intros y z; rewrite !V, !L; apply C].
Qed.
Lemma set_same p x q : p x = Some q -> forall y, p y = set p x q y.
Proof. intros E y. unfold set. destruct (Nat.eqb_spec y x); congruence. Qed.
Lemma single_ext w p p' : (forall y, p y = p' y) -> single w p -> single w p'.
Proof. intros E (A & B). split; [|exact B]. intros x. now rewrite A. Qed.
Lemma gives_back_value f q : gives_back f = true -> value f q = Ok q.
Proof. destruct f; cbn [gives_back]; try discriminate; intros Z; cbn [value]; unfold translate_qlm, translate_Qlmb; cbv zeta; now rewrite Z. Qed.
Lemma get_pget w p x : single w p -> pget p x = get w x.
Proof. intros (A & _). unfold get, pget. now rewrite A. Qed.
Lemma get_some w x q : get w x = Ok q -> val w x = Some q.
Proof. unfold get. destruct (val w x); congruence. Qed.
Lemma single_step w p s : single w p -> one_name s -> let (w', x) := means w s in let (p', x') := plainly p s in single w' p' /\ x = x'.
Proof.
  intros S O. destruct s as [x q|x f y|x y z al be ga rv ty k|x y|x i j v|x c|x y|x y]; unfold means, plainly; rewrite ?(get_pget w p) by exact S.
  - cbn [done]. split; [now apply single_fresh|reflexivity].
  - destruct (get w y) as [q|a] eqn:E; cbn [bind done]; [|now split]. destruct (value f q) as [q'|a] eqn:V; cbn [bind done]; [|now split]. cbn [one_name] in O. destruct (gives_back f) eqn:G.
    + rewrite (O eq_refl) in *. rewrite (gives_back_value f q G) in V. injection V as <-. split; [|reflexivity]. apply (single_ext _ p); [apply set_same|now apply single_share]. rewrite <- (proj1 S). now apply get_some.
    + split; [now apply single_fresh|reflexivity].
  - destruct (get w y) as [q|a] eqn:E; cbn [bind done]; [|now split]. destruct (get w z) as [Q|a] eqn:F; cbn [bind done]; [|now split]. destruct (torque _ _ _ _ _ _ _ _) as [n|a]; cbn [bind done]; [|now split]. split; [now apply single_fresh|reflexivity].
  - cbn [one_name] in O. subst y. destruct (get w x) as [q|a] eqn:E; cbn [bind done]; [|now split]. split; [|reflexivity]. apply (single_ext _ p); [apply set_same|now apply single_share]. rewrite <- (proj1 S). now apply get_some.
  - destruct (get w x) as [q|a] eqn:E; cbn [bind done]; [|now split]. apply get_some in E. split; [|reflexivity]. apply single_change; [exact S|congruence].
  - destruct (get w x) as [q|a] eqn:E; cbn [bind done]; [|now split]. apply get_some in E. split; [|reflexivity]. apply single_change; [exact S|congruence].
  - destruct (get w x) as [q|a] eqn:E; cbn [bind done]; [|now split]. apply get_some in E. destruct (get w y) as [r|a]; cbn [bind done]; [|now split]. destruct (iplus _ _ _); cbn [bind done]; [|now split]. split; [|reflexivity]. apply single_change; [exact S|congruence].
  - destruct (get w x) as [q|a] eqn:E; cbn [bind done]; [|now split]. apply get_some in E. destruct (get w y) as [r|a]; cbn [bind done]; [|now split]. destruct (iplus _ _ _); cbn [bind done]; [|now split]. split; [|reflexivity]. apply single_change; [exact S|congruence].
Qed.
Lemma single_run l : forall w p, single w p -> List.Forall one_name l -> let (w', xs) := means_all w l in let (p', xs') := plainly_all p l in single w' p' /\ xs = xs'.
Proof.
  induction l as [|s l IH]; intros w p S O; cbn [means_all plainly_all]; [now split|]. inversion O as [|? ? O1 O2]; subst. assert (T := single_step w p s S O1). destruct (means w s) as [w1 x], (plainly p s) as [p1 x']. destruct T as [S1 ->].
  assert (I := IH w1 p1 S1 O2). destruct (means_all w1 l) as [w2 xs], (plainly_all p1 l) as [p2 xs']. destruct I as [S2 ->]. now split.
Qed.
(* a program that gives no array a second name sees plain values: nothing done to one array shows in another *)
Theorem C81_values : forall l, List.Forall one_name l -> let '(h, e, raised) := run empty no_names l in let (p, raised') := plainly_all (fun _ => None) l in
  raised = raised' /\ (forall x, p x = option_map (view h) (e x)) /\ (forall x y r s, e x = Some r -> e y = Some s -> loc r = loc s -> x = y).
Proof.
  intros l O. assert (R := C81_history l). assert (S0 : single nothing (fun _ => None)) by (split; [reflexivity|]; split; intros; now cbn in *).
  assert (S := single_run l nothing (fun _ => None) S0 O). destruct (run empty no_names l) as [[h e] xs], (means_all nothing l) as [w xs'], (plainly_all _ l) as [p xs'']. destruct R as (-> & A & B), S as [(C & D & F) ->].
  split; [reflexivity|]. split; [intros x; now rewrite <- C|]. intros x y r s Ex Ey N. apply F; [rewrite A, Ex; discriminate|rewrite A, Ey; discriminate|]. now apply (proj2 (B x y r s Ex Ey)).
Qed.

(* ---- the reader of shape files, newt/read_multiFor.py:140-387: one array `tot` that sums up, one array `wrk` that is
   made (the qlm functions and np.load give new arrays), reduced, moved and turned, and copies either way ---- *)
Inductive reader_stmt (tot wrk aux : name) : stmt -> Prop :=
| Rmake q : reader_stmt tot wrk aux (SNew wrk q)                                  (* qlmWrk = qlm.annulus(...), ... *)
| Rpart q : reader_stmt tot wrk aux (SNew aux q)                                  (* qlm.tri_iso_prism(...) taken away *)
| Rzero q : reader_stmt tot wrk aux (SNew tot q)                                  (* qlmTot = np.zeros(...) *)
| Rless : reader_stmt tot wrk aux (SSub wrk aux)                                  (* qlmWrk -= ... *)
| Rmove v : reader_stmt tot wrk aux (SCall wrk (FShiftQ v) wrk)                   (* qlmWrk = trs.translate_qlm(qlmWrk, pos) *)
| Rturn a b c : reader_stmt tot wrk aux (SCall wrk (FRotate a b c) wrk)           (* qlmWrk = rot.rotate_qlm(qlmWrk, ...) *)
| Radd : reader_stmt tot wrk aux (SAdd tot wrk)                                   (* qlmTot += qlmWrk *)
| Rclear : reader_stmt tot wrk aux (SScale tot 0)                                 (* qlmTot *= 0 *)
| Rsave : reader_stmt tot wrk aux (SCall wrk FCopy tot)                           (* qlmWrk = np.copy(qlmTot) *)
| Rback : reader_stmt tot wrk aux (SCall tot FCopy wrk).                          (* qlmTot = np.copy(qlmWrk) *)
(* whatever the file says, the two arrays of the reader stay apart and hold what they would hold were arrays values *)
Theorem C81_reader : forall tot wrk aux l, List.Forall (reader_stmt tot wrk aux) l ->
  let '(h, e, raised) := run empty no_names l in let (p, raised') := plainly_all (fun _ => None) l in
  raised = raised' /\ (forall x, p x = option_map (view h) (e x)) /\ (forall x y r s, e x = Some r -> e y = Some s -> loc r = loc s -> x = y).
Proof. intros tot wrk aux l F. apply C81_values. revert F. apply List.Forall_impl. intros s []; cbn; auto; discriminate. Qed.

(* ---- where arrays may not be thought of as values: a shift by nothing gives the array a second name, and what is done
   to one is then seen in the other.  translationRecurs and numpy.copy do not do this ---- *)
Definition moved_then_doubled (f : fn) (q : marr) : list stmt :=
  [SNew 0%nat q; SCall 1%nat f 0%nat; SScale 1%nat 2].
Theorem C81_zero_shift_shares : forall f q, gives_back f = true ->
  let '(h, e, raised) := run empty no_names (moved_then_doubled f q) in
  raised = [None; None; None] /\ exists r, e 0%nat = Some r /\ e 1%nat = Some r /\ view h r = cscal 2 q.
Proof.
  intros f q G. destruct (back_runs (grown empty q) f (mkref 0 false) G) as [E V].
  unfold moved_then_doubled, run, step, exec, andthen, lift, ret, alloc, lookup, bindn. cbn [bind Nat.eqb].
  change (mkh (S (top empty)) (fun l : nat => if Nat.eqb l (top empty) then q else buf empty l)) with (grown empty q). change (top empty) with 0%nat. rewrite E. cbn [Nat.eqb].
  unfold load, store. cbn [Nat.eqb]. split; [reflexivity|]. exists (mkref 0 false). split; [reflexivity|]. split; [reflexivity|]. rewrite view_put. now rewrite (view_new empty q : view (grown empty q) (mkref 0 false) = q).
Qed.
Theorem C81_other_calls_do_not : forall f q q', gives_back f = false -> value f q = Ok q' ->
  let '(h, e, raised) := run empty no_names (moved_then_doubled f q) in
  raised = [None; None; None] /\ exists r s, e 0%nat = Some r /\ e 1%nat = Some s /\ loc r <> loc s /\ view h r = q /\ view h s = cscal 2 q'.
Proof.
  intros f q q' G V. assert (R := C81_values (moved_then_doubled f q)). unfold moved_then_doubled in *.
  destruct (run empty no_names _) as [[h e] xs]. set (p1 := set (fun _ => None) 0%nat q).
  assert (P2 : plainly p1 (SCall 1%nat f 0%nat) = (set p1 1%nat q', None)) by (unfold plainly; change (pget p1 0%nat) with (Ok q); cbn [bind]; now rewrite V).
  assert (P3 : plainly (set p1 1%nat q') (SScale 1%nat 2) = (set (set p1 1%nat q') 1%nat (cscal 2 q'), None)) by reflexivity.
  cbn [plainly_all] in R. change (plainly (fun _ => None) (SNew 0%nat q)) with (p1, @None exn) in R. cbv beta iota zeta in R. rewrite P2 in R. cbv beta iota zeta in R. rewrite P3 in R. cbv beta iota zeta in R. unfold p1 in R.
  destruct R as (-> & A & B). { repeat constructor; cbn; congruence. } split; [reflexivity|].
  assert (A0 := A 0%nat). assert (A1 := A 1%nat). cbn [set Nat.eqb] in A0, A1. destruct (e 0%nat) as [r|] eqn:E0; [|discriminate]. destruct (e 1%nat) as [s|] eqn:E1; [|discriminate].
  injection A0 as A0. injection A1 as A1. exists r, s. repeat split; auto. intros N. assert (0%nat = 1%nat) by (exact (B _ _ _ _ E0 E1 N)). discriminate.
Qed.
(* a program with a shared array: y = x shifted by nothing the one way, z = x shifted by nothing the other way, z[1,0] = 5,
   x += y; then x[1,0] is 5 more than it was, and y is what x was *)
Example C81_history_met : forall q, let '(h, e, raised) := run empty no_names
  [SNew 0%nat q; SCall 1%nat (FRecQ (0, 0, 0)%R) 0%nat; SCall 2%nat (FShiftQ (0, 0, 0)%R) 0%nat; SPut 2%nat 1 0 5; SAdd 0%nat 1%nat] in
  raised = [None; None; None; None; None] /\
  exists r s t, e 0%nat = Some r /\ e 1%nat = Some s /\ e 2%nat = Some t /\ loc r = loc t /\ loc r <> loc s /\ at_ (view h r) 1 0 = 5 + at_ q 1 0 /\ view h t = view h r /\ view h s = q.
Proof.
  intros q. set (p := [_; _; _; _; _]). assert (Z : is0 (vnorm (0, 0, 0)%R) = true) by (unfold is0; destruct (Req_EM_T _ _) as [_|N]; [reflexivity|exfalso; apply N, vnorm_0_iff; reflexivity]).
  assert (V1 : value (FRecQ (0, 0, 0)%R) q = Ok q) by (cbn [value]; unfold rec_translate_qlm; cbv zeta; now rewrite Z).
  assert (V2 : value (FShiftQ (0, 0, 0)%R) q = Ok q) by (apply gives_back_value; exact Z).
  assert (G2 : gives_back (FShiftQ (0, 0, 0)%R) = true) by exact Z.
  assert (H := C81_history p). unfold p in *. clear p. destruct (run empty no_names _) as [[h e] xs].
  set (w1 := fresh nothing 0%nat q). set (w2 := fresh w1 1%nat q). set (w3 := share w2 2%nat 0%nat). set (w4 := change w3 2%nat (upd q 1 0 5)).
  set (q5 := mkarr (deg q) (fun i j => at_ (upd q 1 0 5) i j + at_ q i j)). set (w5 := change w4 0%nat q5).
  assert (M : means_all nothing [SNew 0%nat q; SCall 1%nat (FRecQ (0, 0, 0)%R) 0%nat; SCall 2%nat (FShiftQ (0, 0, 0)%R) 0%nat; SPut 2%nat 1 0 5; SAdd 0%nat 1%nat] = (w5, [None; None; None; None; None])).
  { cbn [means_all]. change (means nothing (SNew 0%nat q)) with (w1, @None exn). cbv beta iota zeta.
    assert (T2 : means w1 (SCall 1%nat (FRecQ (0, 0, 0)%R) 0%nat) = (w2, None)) by (unfold means; change (get w1 0%nat) with (Ok q); cbn [bind]; now rewrite V1). rewrite T2. cbv beta iota zeta.
    assert (T3 : means w2 (SCall 2%nat (FShiftQ (0, 0, 0)%R) 0%nat) = (w3, None)) by (unfold means; change (get w2 0%nat) with (Ok q); cbn [bind]; now rewrite V2, G2). rewrite T3. cbv beta iota zeta.
    change (means w3 (SPut 2%nat 1 0 5)) with (w4, @None exn). cbv beta iota zeta.
    assert (T5 : means w4 (SAdd 0%nat 1%nat) = (w5, None)) by (unfold means; change (get w4 0%nat) with (Ok (upd q 1 0 5)); change (get w4 1%nat) with (Ok q); cbn [bind]; unfold iplus; cbn [deg upd]; now rewrite Z.eqb_refl). now rewrite T5. }
  rewrite M in H. unfold w5, w4, w3, w2, w1 in H.
  destruct H as (-> & A & B). split; [reflexivity|].
  assert (A0 := A 0%nat). assert (A1 := A 1%nat). assert (A2 := A 2%nat). cbn [Nat.eqb] in A0, A1, A2.
  destruct (e 0%nat) as [r|] eqn:E0; [|discriminate]. destruct (e 1%nat) as [s|] eqn:E1; [|discriminate]. destruct (e 2%nat) as [t|] eqn:E2; [|discriminate].
  cbn [option_map] in A0, A1, A2. injection A0 as A0. injection A1 as A1. injection A2 as A2.
  exists r, s, t. split; [reflexivity|]. split; [reflexivity|]. split; [reflexivity|].
  split; [apply (B 0%nat 2%nat r t E0 E2); reflexivity|]. split; [intros N; apply (B 0%nat 1%nat r s E0 E1) in N; discriminate|].
  split; [rewrite <- A0; reflexivity|]. split; [now rewrite <- A0, <- A2|now symmetry].
Qed.
Print Assumptions C81_history.
Print Assumptions C81_calls.
Print Assumptions C81_torque.
Print Assumptions C81_reader.
Print Assumptions C81_zero_shift_shares.
Print Assumptions C81_other_calls_do_not.
Print Assumptions C81_values.
