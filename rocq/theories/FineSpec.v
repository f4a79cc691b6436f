(* Specification of C78: how far a point-mass array is from the distribution it stands for. *)
From Coq Require Import Reals List.
From Coquelicot Require Import Coquelicot.
From Verif Require Export NewtonSpec RefineSpec.
From Verif Require Import Cplx.
Open Scope R_scope.

(* f changes by at most K per unit of length *)
Definition lip (K : R) (f : vec -> R) : Prop := forall v w, Rabs (f v - f w) <= K * vnorm (vsub v w).
(* the sum over the array, each point weighted with its mass *)
Definition weighed (f : vec -> R) (pts : list pt) : R := lsr (fun p => pm p * f (pp p)) pts.

(* gridded pts D r M delta: the array pts, made by glibShapes and moved by glib, stands for the distribution D in the ball of radius r about
   the origin; M bounds the mass (holes counted as positive), delta is the mass times a quarter of the sum of the edges of a cell *)
Inductive gridded : list pt -> body -> R -> R -> R -> Prop :=
| f_brick : forall mass x y z nx nz pts r, 0 < x -> 0 < y -> 0 < z -> (0 < nx)%nat -> (0 < nz)%nat -> 0 <= r -> (x / 2) ^ 2 + (y / 2) ^ 2 + (z / 2) ^ 2 <= r ^ 2 ->
    g_rectangle mass x y z nx nx nz = Ok pts ->
    gridded pts (of_mass mass (box z x y)) r (Rabs mass) (Rabs mass * ((x / INR nx + y / INR nx + z / INR nz) / 4))
(* given point masses *)
| f_points : forall P r, 0 <= r -> (forall p, In p P -> vnorm (pp p) <= r) -> gridded P (point_masses P) r (lsr (fun p => Rabs (pm p)) P) 0
(* moved by glib.translate_point_array, turned by glib.rotate_point_array *)
| f_shifted : forall pts D r M delta t q, gridded pts D r M delta -> translate_point_array (Rows pts) t = Rows q -> gridded q (shifted t D) (r + vnorm t) M delta
| f_rotated : forall pts D r M delta axis theta rot q, gridded pts D r M delta -> axis <> v0 -> is_rotation axis theta rot ->
    rotate_point_array (Rows pts) theta axis = Ok (Rows q) -> gridded q (carried rot D) r M delta
(* several arrays in one *)
| f_together : forall p1 D1 M1 d1 p2 D2 M2 d2 r, gridded p1 D1 r M1 d1 -> gridded p2 D2 r M2 d2 -> gridded (p1 ++ p2) (together D1 D2) r (M1 + M2) (d1 + d2)
| f_larger : forall pts D r M delta r', r <= r' -> gridded pts D r M delta -> gridded pts D r' M delta.
