(* Model of pg2Multi.qmoment (/repo/newt/pg2Multi.py:11-39) in rounded arithmetic, in the style of FlGlib.v: every operation of
   the code is followed by a rounding, and the functions of numpy and scipy come from lib; overflow, underflow and nan are not
   modelled (a result is finite); np.sum in any order, for the real and the imaginary parts separately. *)
From Coq Require Import Reals List ZArith Permutation.
From Coquelicot Require Import Coquelicot.
From Verif Require Export Glib FlGlib FlMomSpec.
From Verif Require Import Cplx.
Import ListNotations.
Open Scope R_scope.

Section Float.
Context (A : arith) (lib : library).
(* np.sum; of nothing it is 0 *)
Definition fl_sum (l : list R) (x : R) : Prop := match l with nil => x = 0 | _ => fsum A l x end.
(* :30 r = np.sqrt(x**2 + y**2 + z**2) *)
Definition fl_radius (v : vec) : R := let '(x, y, z) := v in rnd A (sqrt (rnd A (rnd A (rnd A (x * x) + rnd A (y * y)) + rnd A (z * z)))).
(* :32 the argument of arccos, z/r *)
Definition fl_cosine (v : vec) : R := let '(x, y, z) := v in rnd A (z / fl_radius v).
(* :33 arctan2(y, x) % (2*np.pi); np.pi is the rounded constant.  The remainder of a negative number adds the divisor *)
Definition fl_azimuth (v : vec) : R := let '(x, y, z) := v in
  let a := l_atan2 lib y x in if Rlt_dec a 0 then rnd A (a + rnd A (2 * rnd A PI)) else a.
(* :35 mass/np.sqrt(4*np.pi) *)
Definition fl_monopole (p : pt) : R := rnd A (pm p / rnd A (sqrt (rnd A (4 * rnd A PI)))).
(* :37 mass*r**l, then times conj(sph_harm) as a complex number with imaginary part 0 *)
Definition fl_scale (l : Z) (p : pt) : R := rnd A (pm p * l_pow lib (fl_radius (pp p)) (Z.to_nat l)).
Definition fl_harmonic (l m : Z) (p : pt) : C := Cconj (l_sph lib m l (fl_azimuth (pp p)) (l_acos lib (fl_cosine (pp p)))).
Definition fl_term (l m : Z) (p : pt) : C :=
  let w := fl_scale l p in let h := fl_harmonic l m p in
  (rnd A (rnd A (w * fst h) - rnd A (0 * snd h)), rnd A (rnd A (w * snd h) + rnd A (0 * fst h))).
(* :11-39 qmoment; with a point of radius 0 the lengths differ, and the arccos of a number beyond 1 is nan *)
Definition fl_qmoment (l m : Z) (ma : list pt) (q : C) : Prop :=
  if (l =? 0)%Z then fl_sum (map fl_monopole ma) (fst q) /\ snd q = 0
  else (forall p, In p ma -> fl_radius (pp p) <> 0 /\ -1 <= fl_cosine (pp p) <= 1) /\
       fl_sum (map (fun p => fst (fl_term l m p)) ma) (fst q) /\ fl_sum (map (fun p => snd (fl_term l m p)) ma) (snd q).
End Float.
