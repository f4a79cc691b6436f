(* Specification for the Yukawa translations of newt/translationRecurs.py: modified spherical Bessel functions of a real
   argument, by their two starting functions and the three-term recurrence *)
From Coq Require Import Reals ZArith.
Open Scope R_scope.

(* (i_n, i_{n+1}) at x <> 0: i_0 = sinh x / x, i_1 = (x cosh x - sinh x) / x^2, i_{n+2} = i_n - (2n+3) i_{n+1} / x *)
Fixpoint in_pair (x : R) (n : nat) : R * R :=
  match n with
  | O => (sinh x / x, (x * cosh x - sinh x) / x ^ 2)
  | S k => let '(a, b) := in_pair x k in (b, a - (2 * INR k + 3) * b / x)
  end.
(* first kind; i_n(0) = 1 for n = 0 and 0 otherwise *)
Definition sph_in (n : nat) (x : R) : R := if Req_EM_T x 0 then (match n with O => 1 | _ => 0 end) else fst (in_pair x n).
(* (k_n, k_{n+1}): k_0 = (pi/2) exp(-x) / x, k_1 = (pi/2) exp(-x) (1/x + 1/x^2), k_{n+2} = k_n + (2n+3) k_{n+1} / x *)
Fixpoint kn_pair (x : R) (n : nat) : R * R :=
  match n with
  | O => (PI / 2 * exp (- x) / x, PI / 2 * exp (- x) * (1 / x + 1 / x ^ 2))
  | S k => let '(a, b) := kn_pair x k in (b, a + (2 * INR k + 3) * b / x)
  end.
(* second kind, x > 0 *)
Definition sph_kn (n : nat) (x : R) : R := fst (kn_pair x n).
