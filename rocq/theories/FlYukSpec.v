(* Specification of C79: a library exponential, and the quantities the error bounds are stated with. *)
From Coq Require Import Reals List.
From Verif Require Export FloatSpec.
Open Scope R_scope.

(* np.exp: relative error at most 2u (one unit in the last place) *)
Definition accurate_exp (u : R) (ex : R -> R) : Prop := forall x, Rabs (ex x - exp x) <= 2 * u * exp x.
(* the bound after k roundings, when the range of the pair is at most x decay lengths: the error of the argument of
   the exponential is multiplied by that argument *)
Definition after_decay (u : R) (x : R) (k : nat) : R := exp (after u 7 * x) / (1 - u) ^ k - 1.
(* the Yukawa attraction of p by q, in exact arithmetic: minus the gradient of -alpha G m m' exp(-d/lmbd)/d *)
Definition yuk_attraction (alpha lmbd : R) (p q : pt) : vec :=
  let d := vsub (pp q) (pp p) in let r := vnorm d in
  vscal (alpha * BIG_G * pm p * pm q * (1 + r / lmbd) * exp (- r / lmbd) / r ^ 3) d.
(* the sums over all pairs of the sizes of the terms of a force and of a torque component *)
Definition yuk_force_size (alpha lmbd : R) (i : axis) (l1 l2 : list pt) : R := lsr (fun p => lsr (fun q => Rabs (co i (yuk_attraction alpha lmbd p q))) l2) l1.
Definition yuk_torque_size (alpha lmbd : R) (i : axis) (l1 l2 : list pt) : R :=
  lsr (fun p => lsr (fun q => Rabs (co (next i) (pp p) * co (next (next i)) (yuk_attraction alpha lmbd p q)) +
                              Rabs (co (next (next i)) (pp p) * co (next i) (yuk_attraction alpha lmbd p q))) l2) l1.
(* every two points of the two lists are at most d apart *)
Definition within_range (d : R) (l1 l2 : list pt) : Prop := forall p q, In p l1 -> In q l2 -> vnorm (vsub (pp q) (pp p)) <= d.
