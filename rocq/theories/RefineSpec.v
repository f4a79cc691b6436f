(* Specification of C77-C78: point-mass arrays and the solids they stand for.
   A family of arrays: fam n pts holds of the arrays pts made with at least n points along each axis. *)
From Coq Require Import Reals List.
From Coquelicot Require Import Coquelicot.
From Verif Require Export BuiltSpec NumSpec GlibSpec GlibShapes.
From Verif Require Import FloatSpec.
From Verif Require Import Cplx.
Open Scope R_scope.

(* two more solids, as iterated integrals.
   Between the planes x = r1 cos(beta) and x = r2 cos(beta), with |y| <= x tan(beta), z in [-t/2, t/2] *)
Definition trapezoid_wedge (r1 r2 t beta : R) : body := fun f I =>
  is_int3 (r1 * cos beta) (r2 * cos beta) (fun x => - x * tan beta) (fun x => x * tan beta) (fun _ _ => - (t / 2)) (fun _ _ => t / 2) f I.
(* discs of radius r at the heights z in [-t/2, t/2], the centre of each at x = z tan(theta) *)
Definition sheared_cylinder (t r theta : R) : body := fun f I =>
  is_int3 (- (t / 2)) (t / 2) (fun _ => - r) (fun _ => r) (fun z y => z * tan theta - sqrt (r ^ 2 - y ^ 2)) (fun z y => z * tan theta + sqrt (r ^ 2 - y ^ 2)) (fun z y x => f x y z) I.
(* for the heights z in [0, H] and the angles within beta of the x axis, from the cylinder of radius r1 out to the cone of radius r2 at z = 0 and r1 at z = H *)
Definition outer_cone_sector (r1 r2 H beta : R) : body := fun f I =>
  is_int3 (- beta) beta (fun _ => 0) (fun _ => H) (fun _ _ => r1) (fun _ z => r2 - (r2 - r1) * z / H) (fun ph z r => RtoC r * f (r * cos ph)%R (r * sin ph)%R z)%C I.
(* the distribution with every point moved by M *)
Definition carried (M : vec -> vec) (D : body) : body := fun f I => D (fun x y z => let '(x', y', z') := M (x, y, z) in f x' y' z') I.

(* digitised fam D r: the arrays of fam, made by glibShapes and moved by glib, stand for the distribution D, in the ball of radius r *)
Inductive digitised : (nat -> list pt -> Prop) -> body -> R -> Prop :=
| d_rectangle : forall mass x y z r, 0 < x -> 0 < y -> 0 < z -> 0 <= r -> (x / 2) ^ 2 + (y / 2) ^ 2 + (z / 2) ^ 2 <= r ^ 2 ->
    digitised (fun n pts => exists nx nz, (n < nx)%nat /\ (n < nz)%nat /\ g_rectangle mass x y z nx nx nz = Ok pts) (of_mass mass (box z x y)) r
| d_tri_prism : forall mass d y1 y2 t r, mass <> 0 -> 0 < d -> 0 <= y1 < y2 -> 0 < t -> 0 <= r -> d ^ 2 + y2 ^ 2 + (t / 2) ^ 2 <= r ^ 2 ->
    digitised (fun n pts => exists nx ny nz, (n < nx)%nat /\ (n < ny)%nat /\ (n < nz)%nat /\ g_tri_prism mass d y1 y2 t nx ny nz = Ok pts) (of_mass mass (triangular_prism t d y1 y2)) r
| d_tetrahedron : forall mass x y1 y2 z r, mass <> 0 -> 0 < x -> 0 <= y1 < y2 -> 0 < z <= r -> x ^ 2 + y2 ^ 2 <= r ^ 2 ->
    digitised (fun n pts => exists nx ny nz, (n < nx)%nat /\ (n < ny)%nat /\ (n < nz)%nat /\ g_tetrahedron mass x y1 y2 z nx ny nz = Ok pts) (of_mass mass (apex_tetrahedron x y1 y2 z)) r
| d_pyramid : forall mass x y z r, mass <> 0 -> 0 < x -> 0 < y -> 0 < z <= r -> (x / 2) ^ 2 + (y / 2) ^ 2 <= r ^ 2 ->
    digitised (fun n pts => exists nx ny nz, (n < nx)%nat /\ (n < ny)%nat /\ (n < nz)%nat /\ g_pyramid mass x y z nx ny nz = Ok pts) (of_mass mass (rect_pyramid (x / 2) (y / 2) z)) r
| d_trapezoid : forall mass r1 r2 t beta r, mass <> 0 -> 0 <= r1 < r2 -> 0 < t -> 0 < beta < PI / 2 -> 0 <= r -> r2 ^ 2 + (t / 2) ^ 2 <= r ^ 2 ->
    digitised (fun n pts => exists nx nz, (n < nx)%nat /\ (n < nz)%nat /\ g_trapezoid mass r1 r2 t beta nx nz = Ok pts) (of_mass mass (trapezoid_wedge r1 r2 t beta)) r
| d_cylhole : forall mass a Rad r, mass <> 0 -> 0 < a <= Rad -> 0 <= r -> a ^ 2 + Rad ^ 2 <= r ^ 2 ->
    digitised (fun n pts => exists nx nz, (n < nx)%nat /\ (n < nz)%nat /\ g_cylhole mass a Rad nx nz = Ok pts) (of_mass mass (drilled_core a Rad)) r
| d_platehole : forall mass t a theta r, mass <> 0 -> 0 < t -> 0 < a -> 0 <= theta < PI / 2 -> 0 <= r -> (a + t / 2 * tan theta) ^ 2 + (t / 2) ^ 2 <= r ^ 2 ->
    digitised (fun n pts => exists nx ny nz, (n < nx)%nat /\ (n < ny)%nat /\ (n < nz)%nat /\ g_platehole mass t a theta nx ny nz = Ok pts) (of_mass mass (sheared_cylinder t a theta)) r
| d_annulus : forall mass r1 r2 t r, mass <> 0 -> 0 <= r1 < r2 -> 0 < t -> 0 <= r -> r2 ^ 2 + (t / 2) ^ 2 <= r ^ 2 ->
    digitised (fun n pts => exists nx nz, (n < nx)%nat /\ (n < nz)%nat /\ g_annulus mass r1 r2 t nx nz = Ok pts) (of_mass mass (annular_sector t r1 r2 0 PI)) r
| d_wedge : forall mass r1 r2 t beta r, mass <> 0 -> 0 <= r1 < r2 -> 0 < t -> 0 < beta <= PI -> 0 <= r -> r2 ^ 2 + (t / 2) ^ 2 <= r ^ 2 ->
    digitised (fun n pts => exists nx nz, (n < nx)%nat /\ (n < nz)%nat /\ g_wedge mass r1 r2 t beta nx nz = Ok pts) (of_mass mass (annular_sector t r1 r2 0 beta)) r
| d_cone : forall mass Rad H beta r, mass <> 0 -> 0 < Rad <= r -> 0 < H <= r -> 0 < beta <= PI ->
    digitised (fun n pts => exists nx nz, (n < nx)%nat /\ (n < nz)%nat /\ g_cone mass Rad H beta nx nz = Ok pts) (of_mass mass (cone_sector H Rad 0 beta)) r
| d_outer_cone : forall mass r1 r2 H beta r, mass <> 0 -> 0 <= r1 < r2 -> 0 < H -> 0 < beta <= PI -> 0 <= r -> r2 ^ 2 + H ^ 2 <= r ^ 2 ->
    digitised (fun n pts => exists nx nz, (n < nx)%nat /\ (n < nz)%nat /\ g_outer_cone mass r1 r2 H beta nx nz = Ok pts) (of_mass mass (outer_cone_sector r1 r2 H beta)) r
(* given point masses *)
| d_points : forall P r, 0 <= r -> (forall p, In p P -> vnorm (pp p) <= r) -> digitised (fun _ pts => pts = P) (point_masses P) r
(* moved by glib.translate_point_array, turned by glib.rotate_point_array *)
| d_shifted : forall fam D r t, digitised fam D r -> digitised (fun n q => exists pts, fam n pts /\ translate_point_array (Rows pts) t = Rows q) (shifted t D) (r + vnorm t)
| d_rotated : forall fam D r axis theta M, digitised fam D r -> axis <> v0 -> is_rotation axis theta M ->
    digitised (fun n q => exists pts, fam n pts /\ rotate_point_array (Rows pts) theta axis = Ok (Rows q)) (carried M D) r
(* several arrays in one *)
| d_together : forall fam1 D1 fam2 D2 r, digitised fam1 D1 r -> digitised fam2 D2 r -> digitised (fun n q => exists p1 p2, fam1 n p1 /\ fam2 n p2 /\ q = p1 ++ p2) (together D1 D2) r
| d_larger : forall fam D r r', r <= r' -> digitised fam D r -> digitised fam D r'.

(* the unit vectors *)
Definition along (i : axis) : vec := match i with AX => (1, 0, 0) | AY => (0, 1, 0) | AZ => (0, 0, 1) end.
(* the attraction along e of a unit mass at a by one at b, if the force is of the Yukawa kind with strength alpha and range lambda *)
Definition yukawa_pull (alpha lambda : R) (e a b : vec) : R :=
  let d := vnorm (vsub b a) in alpha * (1 + d / lambda) * exp (- (d / lambda)) * pull e a b.
(* F and T: the force on the distribution D1 and the torque on it about the origin, from D2 displaced by t, both in units of the
   gravitational constant; k e a b is the attraction along e of a unit mass at a by one at b *)
Definition interaction (k : vec -> vec -> vec -> R) (D1 : body) (r1 : R) (D2 : body) (r2 : R) (t F T : vec) : Prop :=
  (forall i, pair_integral D1 r1 D2 r2 (fun v w => k (along i) v (vadd w t)) (co i F)) /\
  (forall i, pair_integral D1 r1 D2 r2 (fun v w => k (vcross (along i) v) v (vadd w t)) (co i T)).
(* within eps, component by component *)
Definition vclose (eps : R) (f g : vec) : Prop := forall i, Rabs (co i f - co i g) <= eps.
