(* Specification vocabulary of C59, C60: truncation errors of translated outer moments. *)
From Coq Require Import Reals List.
From Coquelicot Require Import Coquelicot.
From Verif Require Export TransSpec NewtonSpec.
Open Scope R_scope.
(* bound on the error at degree L of the Taylor series of an irregular harmonic about a point at distance b,
   moved by a vector of length a < b, when terms 0..N are kept: a polynomial in N times (a/b)^N *)
Definition err_bound (L : Z) (a b : R) (N : nat) : R :=
  INR (S N) * (IZR (2 * Z.of_nat (S N) + 1) * IZR (2 * L + 2 * Z.of_nat (S N)) ^ Z.to_nat L) * (a / b) ^ N * (a / (b - a) ^ Z.to_nat (L + 2)).
(* the factor between the series' own normalisation and that of outer moments *)
Definition outer_norm (L M : Z) : R := (2 * IZR L + 1) / (4 * PI * nrm L M).
