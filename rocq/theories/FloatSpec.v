(* Specification of C64: floating-point arithmetic by the standard model of rounding, and the quantities the error bounds
   are stated with. *)
From Coq Require Import Reals List.
From Verif Require Export Glib NewtonSpec.
Open Scope R_scope.

(* rounding of the result of + - * / sqrt, and the library's cube (r**3) *)
Record arith := mkarith { rnd : R -> R; cube : R -> R }.
(* each rounding has relative error at most u, the cube at most 2u (one unit in the last place) *)
Definition accurate (u : R) (A : arith) : Prop :=
  0 <= u <= 1 / 4 /\ (forall x, Rabs (rnd A x - x) <= u * Rabs x) /\ (forall x, Rabs (cube A x - x ^ 3) <= 2 * u * Rabs (x ^ 3)).
(* the bound after k roundings: (1-u)^-k - 1 *)
Definition after (u : R) (k : nat) : R := / (1 - u) ^ k - 1.

(* components of a vector *)
Inductive axis := AX | AY | AZ.
Definition co (i : axis) (v : vec) : R := let '(x, y, z) := v in match i with AX => x | AY => y | AZ => z end.
Definition next (i : axis) : axis := match i with AX => AY | AY => AZ | AZ => AX end.
(* the attraction of p by q, in exact arithmetic *)
Definition attraction (p q : pt) : vec :=
  let d := vsub (pp q) (pp p) in vscal (BIG_G * pm p * pm q / vnorm d ^ 3) d.
(* the sums over all pairs of the sizes of the terms of a force and of a torque component *)
Definition force_size (i : axis) (l1 l2 : list pt) : R := lsr (fun p => lsr (fun q => Rabs (co i (attraction p q))) l2) l1.
Definition torque_size (i : axis) (l1 l2 : list pt) : R :=
  lsr (fun p => lsr (fun q => Rabs (co (next i) (pp p) * co (next (next i)) (attraction p q)) + Rabs (co (next (next i)) (pp p) * co (next i) (attraction p q))) l2) l1.
