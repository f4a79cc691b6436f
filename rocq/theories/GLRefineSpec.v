(* Specification of C83: the arrays of newt/gShapeGL.py with more and more points, and the solids they stand for. *)
From Coq Require Import Reals List.
From Coquelicot Require Import Coquelicot.
From Verif Require Export RefineSpec GShapeGL GLSpec.
From Verif Require Import Cplx.
Open Scope R_scope.

(* the ball of radius r about the origin, as an iterated integral *)
Definition round_ball (r : R) : body := fun f I =>
  is_int3 (- r) r (fun x => - sqrt (r ^ 2 - x ^ 2)) (fun x => sqrt (r ^ 2 - x ^ 2)) (fun x y => - sqrt (r ^ 2 - x ^ 2 - y ^ 2)) (fun x y => sqrt (r ^ 2 - x ^ 2 - y ^ 2)) f I.
(* two cones with their apices at the origin and bases of radius Rad at z = H and z = -H *)
Definition two_cones (Rad H : R) : body := fun f I =>
  is_int3 (- PI) PI (fun _ => - H) (fun _ => H) (fun _ _ => 0) (fun _ z => Rad * Rabs z / H) (fun ph z r => RtoC r * f (r * cos ph)%R (r * sin ph)%R z)%C I.
(* what gl_tri_prism keeps of the prism over the triangle with the corners (0, 0), (d, y1) and (d, y2): the part with |y - y2/2| <= y2/4 *)
Definition middle_prism (t d y1 y2 : R) : body := fun f I =>
  is_int3 (d / 4) (3 * d * y2 / Rmax (3 * y2) (4 * y1)) (fun x => Rmax (x * y1 / d) (y2 / 4)) (fun x => Rmin (x * y2 / d) (3 * y2 / 4)) (fun _ _ => - (t / 2)) (fun _ _ => t / 2) f I.

(* gl_digitised fam D r: the arrays of fam, made by gShapeGL from Gauss-Legendre rules of more than n points along each axis (dz = dd where
   gShapeGL takes both), or by glibShapes, and moved by glib, stand for the distribution D, in the ball of radius r.
   The solids are those the arrays fill, not those the docstrings name: annulus and wedge are 2t high, and so on (C41) *)
Inductive gl_digitised : (nat -> list pt -> Prop) -> body -> R -> Prop :=
| q_rectangle : forall mass x y z r, mass <> 0 -> 0 < x -> 0 < y -> 0 < z -> 0 <= r -> (x / 2) ^ 2 + (y / 2) ^ 2 + (z / 2) ^ 2 <= r ^ 2 ->
    gl_digitised (fun n pts => exists gl dx dy dz, (n < dx)%nat /\ (n < dy)%nat /\ (n < dz)%nat /\ rules_at gl (dx :: dy :: dz :: nil) /\ gl_rectangle gl mass x y z dx dy dz = Ok pts) (of_mass mass (box z x y)) r
| q_sphere : forall mass Rad r, mass <> 0 -> 0 < Rad <= r ->
    gl_digitised (fun n pts => exists gl dd, (n < dd)%nat /\ rules_at gl (dd :: nil) /\ gl_sphere gl mass Rad dd = Ok pts) (of_mass mass (round_ball Rad)) r
| q_annulus : forall mass iR oR t r, 0 <= iR < oR -> 0 < t -> 0 <= r -> oR ^ 2 + t ^ 2 <= r ^ 2 ->
    gl_digitised (fun n pts => exists gl dd, (n < dd)%nat /\ rules_at gl (dd :: nil) /\ gl_annulus gl mass iR oR t dd dd = Ok pts) (of_mass mass (annular_sector (2 * t) iR oR 0 PI)) r
| q_wedge : forall mass iR oR t theta r, 0 <= iR < oR -> 0 < t -> 0 < theta <= PI -> 0 <= r -> oR ^ 2 + t ^ 2 <= r ^ 2 ->
    gl_digitised (fun n pts => exists gl dd, (n < dd)%nat /\ rules_at gl (dd :: nil) /\ gl_wedge gl mass iR oR t theta dd dd = Ok pts) (of_mass mass (annular_sector (2 * t) iR oR 0 theta)) r
| q_cone : forall mass Rad H r, 0 < Rad -> 0 < H -> 0 <= r -> Rad ^ 2 + H ^ 2 <= r ^ 2 ->
    gl_digitised (fun n pts => exists gl dd, (n < dd)%nat /\ rules_at gl (dd :: nil) /\ gl_cone gl mass Rad H dd dd = Ok pts) (of_mass mass (two_cones Rad H)) r
| q_tri_prism : forall mass d y1 y2 t r, mass <> 0 -> 0 < d -> 0 <= y1 < y2 -> 0 < t -> 0 <= r -> d ^ 2 + (3 * y2 / 4) ^ 2 + (t / 2) ^ 2 <= r ^ 2 ->
    gl_digitised (fun n pts => exists gl dx dy dz, (n < dx)%nat /\ (n < dy)%nat /\ (n < dz)%nat /\ rules_at gl (dx :: dy :: dz :: nil) /\ gl_tri_prism gl mass d y1 y2 t dx dy dz = Ok pts) (of_mass mass (middle_prism t d y1 y2)) r
(* the arrays of glibShapes, and given points *)
| q_uniform : forall fam D r, digitised fam D r -> gl_digitised fam D r
| q_shifted : forall fam D r t, gl_digitised fam D r -> gl_digitised (fun n q => exists pts, fam n pts /\ translate_point_array (Rows pts) t = Rows q) (shifted t D) (r + vnorm t)
| q_rotated : forall fam D r axis theta M, gl_digitised fam D r -> axis <> v0 -> is_rotation axis theta M ->
    gl_digitised (fun n q => exists pts, fam n pts /\ rotate_point_array (Rows pts) theta axis = Ok (Rows q)) (carried M D) r
| q_together : forall fam1 D1 fam2 D2 r, gl_digitised fam1 D1 r -> gl_digitised fam2 D2 r -> gl_digitised (fun n q => exists p1 p2, fam1 n p1 /\ fam2 n p2 /\ q = p1 ++ p2) (together D1 D2) r
| q_larger : forall fam D r r', r <= r' -> gl_digitised fam D r -> gl_digitised fam D r'.
