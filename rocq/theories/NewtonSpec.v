(* Specification vocabulary of C46: sources outside the test body, Newton's energy, limits. *)
From Coq Require Import Reals Lra List.
From Coquelicot Require Import Coquelicot.
From Verif Require Export MomentSpec.
Open Scope R_scope.
(* sum of a real function over a list *)
Definition lsr {A} (f : A -> R) (l : list A) : R := fold_right (fun x acc => (f x + acc)%R) 0%R l.
(* every source s is off the origin, and farther from it than every point p of the test body *)
Definition inside (P S : list pt) : Prop :=
  (forall s, In s S -> 0 < vnorm (pp s)) /\ forall p s, In p P -> In s S -> vnorm (pp p) < vnorm (pp s).
(* minus the Newtonian potential energy:  sum_ij c m_i M_j / |V_j - v_i| *)
Definition newton_work (c : R) (P S : list pt) : R :=
  lsr (fun p => lsr (fun s => c * pm p * pm s / vnorm (vsub (pp s) (pp p))) S) P.
(* component z of a vector *)
Definition zcomp (v : vec) : R := let '(_, _, z) := v in z.
(* a sequence of complex triples that is real and converges to a vector *)
Definition tends (f : nat -> C * C * C) (F : vec) : Prop :=
  let '(x, y, z) := F in
  is_lim_seq (fun n => Re (fst (fst (f n)))) x /\ is_lim_seq (fun n => Re (snd (fst (f n)))) y /\ is_lim_seq (fun n => Re (snd (f n))) z.
Definition all_real (f : nat -> C * C * C) : Prop := forall n, Im (fst (fst (f n))) = 0 /\ Im (snd (fst (f n))) = 0 /\ Im (snd (f n)) = 0.
