(* Specification of C82: Gauss-Legendre arrays of bricks, moved, turned and joined, and the solids they stand for. *)
From Coq Require Import Reals List.
From Coquelicot Require Import Coquelicot.
From Verif Require Export FineSpec GShapeGL GLSpec.
From Verif Require Import Cplx.
Open Scope R_scope.

(* ruled gl N pts D r M: the array pts, made of bricks by gShapeGL with more than N/2 points along each edge, and moved and turned by
   glib, stands for the distribution D in the ball of radius r; M is the mass (holes counted as positive) *)
Inductive ruled (gl : nat -> list (R * R)) (N : nat) : list pt -> body -> R -> R -> Prop :=
| u_brick : forall mass x y z dx dy dz pts r, 0 < x -> 0 < y -> 0 < z -> (N < 2 * dx)%nat -> (N < 2 * dy)%nat -> (N < 2 * dz)%nat ->
    rules_at gl (dx :: dy :: dz :: nil) -> 0 <= r -> (x / 2) ^ 2 + (y / 2) ^ 2 + (z / 2) ^ 2 <= r ^ 2 ->
    gl_rectangle gl mass x y z dx dy dz = Ok pts ->
    ruled gl N pts (of_mass mass (box z x y)) r (Rabs mass)
| u_points : forall P r, 0 <= r -> (forall p, In p P -> vnorm (pp p) <= r) -> ruled gl N P (point_masses P) r (lsr (fun p => Rabs (pm p)) P)
| u_shifted : forall pts D r M t q, ruled gl N pts D r M -> translate_point_array (Rows pts) t = Rows q -> ruled gl N q (shifted t D) (r + vnorm t) M
| u_rotated : forall pts D r M axis theta rot q, ruled gl N pts D r M -> axis <> v0 -> is_rotation axis theta rot ->
    rotate_point_array (Rows pts) theta axis = Ok (Rows q) -> ruled gl N q (carried rot D) r M
| u_together : forall p1 D1 M1 p2 D2 M2 r, ruled gl N p1 D1 r M1 -> ruled gl N p2 D2 r M2 -> ruled gl N (p1 ++ p2) (together D1 D2) r (M1 + M2)
| u_larger : forall pts D r M r', r <= r' -> ruled gl N pts D r M -> ruled gl N pts D r' M.
