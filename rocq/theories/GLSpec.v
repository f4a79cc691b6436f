(* Specification: Gauss-Legendre rules *)
From Coq Require Import Reals List Sorting.
From Coquelicot Require Import Coquelicot.
Import ListNotations.
Open Scope R_scope.

Definition quad (r : list (R * R)) (f : R -> R) : R := fold_right (fun p acc => snd p * f (fst p) + acc) 0 r.
(* n points inside (-1, 1) in increasing order, positive weights, exact for the powers below 2n *)
Record gauss_rule (n : nat) (r : list (R * R)) : Prop := {
  gr_len : length r = n;
  gr_in : forall p, In p r -> -1 < fst p < 1 /\ 0 < snd p;
  gr_sorted : StronglySorted Rlt (map fst r);
  gr_exact : forall k, (k < 2 * n)%nat -> is_RInt (fun x => x ^ k) (-1) 1 (quad r (fun x => x ^ k)) }.
(* numpy's leggauss is right for these numbers of points *)
Definition rules_at (gl : nat -> list (R * R)) (ns : list nat) : Prop := forall n, In n ns -> gauss_rule n (gl n).

(* x is the point of [a, b] that a point of the rule with weight w is mapped to *)
Definition on_rule (r : list (R * R)) (a b x w : R) : Prop := exists s, In (s, w) r /\ x = (a + b) / 2 + s * ((b - a) / 2).
