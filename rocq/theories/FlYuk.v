(* Model of glib.yukawa_array and point_matrix_yukawa (/repo/newt/glib.py:48-86, 125-162) in rounded arithmetic, in the
   style of FlGlib.v: every operation of the code is followed by a rounding; overflow, underflow and nan are not
   modelled; np.sum and dot in any order. *)
From Coq Require Import Reals List Permutation.
From Verif Require Export Glib FloatSpec FlGlib FlYukSpec.
Import ListNotations.
Open Scope R_scope.

Section Float.
(* ex is np.exp; alpha and lmbd the arguments of the call *)
Context (A : arith) (ex : R -> R) (alpha lmbd : R).
(* :68 coef = alpha*BIG_G*mass1[0], from left to right; BIG_G is the rounded constant *)
Definition fl_coef (p : pt) : R := rnd A (rnd A (alpha * rnd A BIG_G) * pm p).
(* :75, :84 fac = (1/r**3 + 1/(r**2*lmbd)); numpy squares by one multiplication *)
Definition fl_fac (r : R) : R := rnd A (rnd A (1 / cube A r) + rnd A (1 / rnd A (rnd A (r * r) * lmbd))).
(* :76, :85 coef*mass2[0]*np.exp(-r/lmbd)*fac, from left to right *)
Definition fl_yuk_weight (p q : pt) (r : R) : R := rnd A (rnd A (rnd A (fl_coef p * pm q) * ex (rnd A (- r / lmbd))) * fl_fac r).
(* :48-86 yukawa_array: f is a finite value it may return; with r = 0 or lmbd = 0 it is not finite *)
Definition fl_yukawa_array (mass1 : pt) (mass2 : parr) (f : vec) : Prop :=
  lmbd <> 0 /\
  match mass2 with
  | Row q => exists r, fl_modulus A mass1 q r /\ r <> 0 /\ forall i, co i f = rnd A (fl_sep A mass1 q i * fl_yuk_weight mass1 q r)
  | Rows l => exists rs, Forall2 (fun q r => fl_modulus A mass1 q r /\ r <> 0) l rs /\
      forall i, fdot A (map (fun qr => (fl_sep A mass1 (fst qr) i, fl_yuk_weight mass1 (fst qr) (snd qr))) (combine l rs)) (co i f)
  end.
(* :155-160 force += forceK; torque += torqueK *)
Inductive fl_yuk_loop (mass2 : parr) : list pt -> vec * vec -> vec * vec -> Prop :=
| fly_done : forall acc, fl_yuk_loop mass2 nil acc acc
| fly_step : forall p rest acc fK tK acc' out, fl_yukawa_array p mass2 fK -> fl_cross A (pp p) fK tK ->
    (forall i, co i (fst acc') = rnd A (co i (fst acc) + co i fK)) -> (forall i, co i (snd acc') = rnd A (co i (snd acc) + co i tK)) ->
    fl_yuk_loop mass2 rest acc' out -> fl_yuk_loop mass2 (p :: rest) acc out.
(* :125-162 point_matrix_yukawa *)
Definition fl_point_matrix_yukawa (mass1 mass2 : parr) (f t : vec) : Prop :=
  match mass1 with
  | Row p => fl_yukawa_array p mass2 f /\ fl_cross A (pp p) f t
  | Rows l => fl_yuk_loop mass2 l (v0, v0) (f, t)
  end.
End Float.
