(* Model of /repo/newt/clebschGordan.py *)
From Verif Require Export Tri.
Open Scope R_scope.

(* real sum over range(a, b) *)
Definition rsum (a b : Z) (f : Z -> R) : R :=
  fold_right (fun i acc => f (a + Z.of_nat i)%Z + acc) 0 (seq 0 (Z.to_nat (b - a))).
(* scipy.special.gammaln(n) at an integer n >= 1: ln (n-1)! *)
Definition gammaln (n : Z) : R := ln (zfact (n - 1)).
(* (-1)**k *)
Definition sgnR (k : Z) : R := if Z.even k then 1 else -1.

(* clebschGordan.py:43-49, the two early "return 0" guards (shared with 112-118) *)
Definition cg_guard (j1 j2 m1 m2 J M : Z) : bool :=
  ((j1 <? Z.abs m1) || (j2 <? Z.abs m2) || (J <? Z.abs M)
   || (J >? j1 + j2) || (J <? Z.abs (j1 - j2)))%bool%Z.
(* :50-56 and 119-125: delta and the sign flip for negative M *)
Definition cg_delta (j1 j2 m1 m2 J M : Z) : R :=
  (if (M =? m1 + m2)%Z then 1 else 0) * (if (M <? 0)%Z then sgnR (J - j1 - j2) else 1).
Definition zsgnflip (M x : Z) : Z := if (M <? 0)%Z then (- x)%Z else x.

(* clebschGordan.py:59-76: kmin, kmax, fac1, fac2, the sum (M >= 0 here) *)
Definition cg_fac1 (j1 j2 J : Z) : R :=
  sqrt ((2 * IZR J + 1) * exp (gammaln (J + j1 - j2 + 1) + gammaln (J - j1 + j2 + 1)
                               + (gammaln (j1 + j2 - J + 1) - gammaln (j1 + j2 + J + 2)))).
Definition cg_kmin (j1 j2 m1 m2 J : Z) : Z := Z.max 0 (Z.max (j2 - m1 - J) (j1 + m2 - J)).
Definition cg_kmax (j1 j2 m1 m2 J : Z) : Z := Z.min (j1 + j2 - J) (Z.min (j1 - m1) (j2 + m2)).
Definition cg_body (j1 j2 m1 m2 J M : Z) : R :=
  let fac2 := sqrt (exp (gammaln (J + M + 1) + gammaln (J - M + 1)
                         + (gammaln (j1 - m1 + 1) + gammaln (j1 + m1 + 1))
                         + (gammaln (j2 - m2 + 1) + gammaln (j2 + m2 + 1)))) in
  let sumCG := rsum (cg_kmin j1 j2 m1 m2 J) (cg_kmax j1 j2 m1 m2 J + 1) (fun k =>
     sgnR k / exp (gammaln (k + 1) + gammaln (j1 + j2 - J - k + 1)
                   + (gammaln (j1 - m1 - k + 1) + gammaln (j2 + m2 - k + 1))
                   + (gammaln (J - j2 + m1 + k + 1) + gammaln (J - j1 - m2 + k + 1)))) in
  cg_fac1 j1 j2 J * fac2 * sumCG.
(* clebschGordan.py:11-77 cgCoeff (the printed messages are not modelled) *)
Definition cgCoeff (j1 j2 m1 m2 J M : Z) : R :=
  if cg_guard j1 j2 m1 m2 J M then 0
  else cg_delta j1 j2 m1 m2 J M
       * cg_body j1 j2 (zsgnflip M m1) (zsgnflip M m2) J (zsgnflip M M).

(* clebschGordan.py:127-142 *)
Definition cg_body2 (j1 j2 m1 m2 J M : Z) : R :=
  let fac2 := sqrt (zcomb (2 * j1) (j1 - j2 + J) * zcomb (2 * j2) (j1 + j2 - J) * zcomb (2 * J) (- j1 + j2 + J)
                    / (zcomb (2 * j1) (j1 + m1) * zcomb (2 * j2) (j2 + m2) * zcomb (2 * J) (J + M))) in
  let sumCG := rsum (Z.max 0 (Z.max (j2 - J - m1) (j1 - J + m2))) (cg_kmax j1 j2 m1 m2 J + 1) (fun k =>
     zcomb (j1 + j2 - J) k * zcomb (j1 - j2 + J) (j1 - m1 - k) * zcomb (- j1 + j2 + J) (j2 + m2 - k) * sgnR k) in
  cg_fac1 j1 j2 J * fac2 * sumCG.
(* clebschGordan.py:80-143 cgCoeff2 *)
Definition cgCoeff2 (j1 j2 m1 m2 J M : Z) : R :=
  if cg_guard j1 j2 m1 m2 J M then 0
  else cg_delta j1 j2 m1 m2 J M
       * cg_body2 j1 j2 (zsgnflip M m1) (zsgnflip M m2) J (zsgnflip M M).
