(* Model of glib.gmmr2_array and point_matrix_gravity (/repo/newt/glib.py:14-45, 89-122) in rounded arithmetic: every
   operation of the code is followed by a rounding.  Overflow, underflow and nan are not modelled: a result is a finite
   number.  Where numpy leaves the order of operations open (np.sum, dot: any order, any grouping, fused multiply-add
   or not) the model is a relation that admits all of them. *)
From Coq Require Import Reals List Permutation.
From Verif Require Export Glib FloatSpec.
Import ListNotations.
Open Scope R_scope.

Section Float.
Context (A : arith).
(* np.sum of a non-empty list *)
Inductive fsum : list R -> R -> Prop :=
| fs_one : forall x, fsum (x :: nil) x
| fs_add : forall l1 l2 l a b, fsum l1 a -> fsum l2 b -> Permutation l (l1 ++ l2) -> fsum l (rnd A (a + b)).
(* the dot product of a non-empty list of pairs; fd_fma is a fused multiply-add *)
Inductive fdot1 : list (R * R) -> R -> Prop :=
| fd_one : forall a b, fdot1 ((a, b) :: nil) (rnd A (a * b))
| fd_add : forall l1 l2 l x y, fdot1 l1 x -> fdot1 l2 y -> Permutation l (l1 ++ l2) -> fdot1 l (rnd A (x + y))
| fd_fma : forall l1 l a b x, fdot1 l1 x -> Permutation l ((a, b) :: l1) -> fdot1 l (rnd A (a * b + x)).
Definition fdot (l : list (R * R)) (x : R) : Prop := match l with nil => x = 0 | _ => fdot1 l x end.
(* :32, :40 rvec = mass2[..., 1:4] - mass1[1:4] *)
Definition fl_sep (p q : pt) (i : axis) : R := rnd A (co i (pp q) - co i (pp p)).
(* :34, :42 r = np.sqrt(np.sum(rvec**2)); numpy squares by one multiplication *)
Definition fl_modulus (p q : pt) (r : R) : Prop :=
  exists s, fsum (map (fun i => rnd A (fl_sep p q i * fl_sep p q i)) (AX :: AY :: AZ :: nil)) s /\ r = rnd A (sqrt s).
(* :36, :44 BIG_G*mass1[0]*mass2[0]/r**3, from left to right; BIG_G is the rounded constant *)
Definition fl_weight (p q : pt) (r : R) : R := rnd A (rnd A (rnd A (rnd A BIG_G * pm p) * pm q) / cube A r).
(* :14-45 gmmr2_array: f is a finite value it may return *)
Definition fl_gmmr2_array (mass1 : pt) (mass2 : parr) (f : vec) : Prop :=
  match mass2 with
  | Row q => exists r, fl_modulus mass1 q r /\ r <> 0 /\ forall i, co i f = rnd A (fl_sep mass1 q i * fl_weight mass1 q r)
  | Rows l => exists rs, Forall2 (fun q r => fl_modulus mass1 q r /\ r <> 0) l rs /\
      forall i, fdot (map (fun qr => (fl_sep mass1 (fst qr) i, fl_weight mass1 (fst qr) (snd qr))) (combine l rs)) (co i f)
  end.
(* numpy.cross *)
Definition fl_cross (a b c : vec) : Prop :=
  forall i, co i c = rnd A (rnd A (co (next i) a * co (next (next i)) b) - rnd A (co (next (next i)) a * co (next i) b)).
(* :115-120 force += forceK; torque += torqueK *)
Inductive fl_loop (mass2 : parr) : list pt -> vec * vec -> vec * vec -> Prop :=
| fl_done : forall acc, fl_loop mass2 nil acc acc
| fl_step : forall p rest acc fK tK acc' out, fl_gmmr2_array p mass2 fK -> fl_cross (pp p) fK tK ->
    (forall i, co i (fst acc') = rnd A (co i (fst acc) + co i fK)) -> (forall i, co i (snd acc') = rnd A (co i (snd acc) + co i tK)) ->
    fl_loop mass2 rest acc' out -> fl_loop mass2 (p :: rest) acc out.
(* :89-122 point_matrix_gravity *)
Definition fl_point_matrix_gravity (mass1 mass2 : parr) (f t : vec) : Prop :=
  match mass1 with
  | Row p => fl_gmmr2_array p mass2 f /\ fl_cross (pp p) f t
  | Rows l => fl_loop mass2 l (v0, v0) (f, t)
  end.
End Float.
