(* Model of pg2Multi.qmoments (/repo/newt/pg2Multi.py:107-148) in rounded arithmetic, over FlMom.v.  Simplifications: an array with a
   point of (computed) radius 0 is not modelled here (Pg2Multi.v has what rids does to it); overflow, underflow and nan as in FlMom.v. *)
From Coq Require Import Reals List ZArith.
From Coquelicot Require Import Coquelicot.
From Verif Require Export FlMom.
From Verif Require Import Cplx.
Open Scope R_scope.

Section Float.
Context (A : arith) (lib : library).
(* numpy's complex sum, and its product with a real number: (a + bi)(r + 0i) *)
Definition fl_cadd (z w : C) : C := (rnd A (fst z + fst w), rnd A (snd z + snd w)).
Definition fl_cscale (z : C) (r : R) : C := (rnd A (rnd A (fst z * r) - rnd A (snd z * 0)), rnd A (rnd A (fst z * 0) + rnd A (snd z * r))).
(* numpy's complex division by 2 + 0i, by the larger part *)
Definition fl_chalf (z : C) : C :=
  let rat := rnd A (0 / 2) in let scl := rnd A (1 / rnd A (2 + rnd A (0 * rat))) in
  (rnd A (rnd A (fst z + rnd A (snd z * rat)) * scl), rnd A (rnd A (snd z - rnd A (fst z * rat)) * scl)).
(* :143-144 the factor (-1)**|m| *)
Definition parity (m : Z) : R := if Z.even m then 1 else -1.
(* :125-148; s n m is the cell qlms[n, l+m] after the loops :135-140 (the same sums as qmoment's, the product taken in the other
   order), the cells of negative m being 0; then qlms += conj(fliplr(qlms))*fac :145 and the column of m = 0 is halved :146 *)
Definition fl_reflected (s : Z -> Z -> C) (n m : Z) : C :=
  let cell k := if (k <? 0)%Z then RtoC 0 else s n k in
  let both := fl_cadd (cell m) (fl_cscale (Cconj (cell (- m)%Z)) (parity (Z.abs m))) in
  if (m =? 0)%Z then fl_chalf both else both.
Definition fl_qmoments (L : Z) (ma : list pt) (q : Z -> Z -> C) : Prop :=
  (forall p, In p ma -> fl_radius A (pp p) <> 0 /\ -1 <= fl_cosine A (pp p) <= 1) /\
  exists s : Z -> Z -> C, (forall n m, (0 <= m <= n)%Z -> (n <= L)%Z -> fl_qmoment A lib n m ma (s n m)) /\
    forall n m, (Z.abs m <= n)%Z -> (n <= L)%Z -> q n m = fl_reflected s n m.
End Float.
