(* Python outcomes: a value or an exception.  NotFinite stands for a numpy
   result containing nan/inf (numpy does not raise: it warns and returns it). *)
Inductive exn := ValueError | TypeError | IndexError | UnboundLocal | NotFinite | KeyError | LookupFail | AttributeError | ZeroDivision.
Inductive res (A : Type) := Ok (a : A) | Err (e : exn).
Arguments Ok {A} a.
Arguments Err {A} e.
Definition bind {A B} (x : res A) (f : A -> res B) : res B :=
  match x with Ok a => f a | Err e => Err e end.
Notation "'do' x <- e1 ; e2" := (bind e1 (fun x => e2))
  (at level 200, x pattern, e1 at level 100, e2 at level 200).
Definition rmap {A B} (f : A -> B) (x : res A) : res B :=
  match x with Ok a => Ok (f a) | Err e => Err e end.
Definition isOk {A} (x : res A) : bool := match x with Ok _ => true | _ => false end.
Lemma bind_ok {A B} (x : res A) (f : A -> res B) b :
  bind x f = Ok b -> exists a, x = Ok a /\ f a = Ok b.
Proof. destruct x; simpl; intros H; [eauto|discriminate]. Qed.
