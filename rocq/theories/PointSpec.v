(* Specification for newt/glibShapes.py: solids as sets of points, and what it means for an array of point masses to fill one *)
From Verif Require Export Glib.
From Verif Require Import MomentSpec.
From Coq Require Import Reals List.
Import ListNotations.
Open Scope R_scope.

Definition region := vec -> Prop.
(* (x, y) in polar coordinates: radius between r1 and r2, angle between -beta and beta *)
Definition in_sector (r1 r2 beta x y : R) : Prop := exists r q, r1 <= r <= r2 /\ - beta <= q <= beta /\ x = r * cos q /\ y = r * sin q.
Definition ball_region (Rad : R) : region := fun v => vnorm v <= Rad.
(* the brick centred at c *)
Definition brick (c : vec) (a b h : R) : region := fun v => let '(x, y, z) := v in let '(cx, cy, cz) := c in
  Rabs (x - cx) <= a / 2 /\ Rabs (y - cy) <= b / 2 /\ Rabs (z - cz) <= h / 2.
Definition ring (r1 r2 t : R) : region := fun v => let '(x, y, z) := v in r1 ^ 2 <= x ^ 2 + y ^ 2 <= r2 ^ 2 /\ Rabs z <= t / 2.
Definition ring_sector (r1 r2 t beta : R) : region := fun v => let '(x, y, z) := v in in_sector r1 r2 beta x y /\ Rabs z <= t / 2.
(* cone with apex at z = H and base radius Rad *)
Definition cone_region (Rad H beta : R) : region := fun v => let '(x, y, z) := v in 0 <= z <= H /\ in_sector 0 (Rad * (1 - z / H)) beta x y.
(* between the cylinder of radius r1 and the cone that meets z = 0 at r2 and z = H at r1 *)
Definition outer_cone_region (r1 r2 H beta : R) : region := fun v => let '(x, y, z) := v in 0 <= z <= H /\ in_sector r1 (r2 - (r2 - r1) * z / H) beta x y.
Definition trapezoid_region (r1 r2 t beta : R) : region := fun v => let '(x, y, z) := v in
  r1 * cos beta <= x <= r2 * cos beta /\ Rabs y <= x * tan beta /\ Rabs z <= t / 2.
Definition triangle_region (d y1 y2 t : R) : region := fun v => let '(x, y, z) := v in 0 <= x <= d /\ x * y1 / d <= y <= x * y2 / d /\ Rabs z <= t / 2.
Definition tetra_region (X y1 y2 Z : R) : region := fun v => let '(x, y, z) := v in 0 <= x /\ 0 <= z /\ x * y1 / X <= y <= x * y2 / X /\ x / X + z / Z <= 1.
(* regular polygon of N sides of length a, one of them at right angles to the x axis *)
Definition ngon_region (H a : R) (N : nat) : region := fun v => let '(x, y, z) := v in
  (forall i, (i < N)%nat -> x * cos (2 * PI * INR i / INR N) + y * sin (2 * PI * INR i / INR N) <= a / (2 * tan (PI / INR N))) /\ Rabs z <= H / 2.
(* apex (0, 0, h) over a rectangle with half sides a, b *)
Definition pyramid_region (a b h : R) : region := fun v => let '(x, y, z) := v in 0 <= z <= h /\ Rabs x <= a * (1 - z / h) /\ Rabs y <= b * (1 - z / h).
(* the common part of two cylinders, radius r about z and radius Rad about x *)
Definition crossed_region (r Rad : R) : region := fun v => let '(x, y, z) := v in x ^ 2 + y ^ 2 <= r ^ 2 /\ y ^ 2 + z ^ 2 <= Rad ^ 2.
(* the part between z = -t/2 and z = t/2 of a hole leaning by theta from z towards x *)
Definition slanted_region (t r theta : R) : region := fun v => let '(x, y, z) := v in Rabs z <= t / 2 /\ (x - z * tan theta) ^ 2 + y ^ 2 <= r ^ 2.

(* the centres of n equal cells of [a, b] *)
Definition centre (a b : R) (n : nat) (x : R) : Prop := exists i, (i < n)%nat /\ x = a + (INR i + 1 / 2) * ((b - a) / INR n).
Record span := mkspan { s_x0 : R; s_x1 : R; s_y0 : R; s_y1 : R; s_z0 : R; s_z1 : R }.
Definition on_lattice (b : span) (nx ny nz : nat) (v : vec) : Prop := let '(x, y, z) := v in
  centre (s_x0 b) (s_x1 b) nx x /\ centre (s_y0 b) (s_y1 b) ny y /\ centre (s_z0 b) (s_z1 b) nz z.
(* the points are exactly the lattice points inside the solid, each once, all of one mass, together the mass asked for *)
Definition fills (mass : R) (S : region) (b : span) (nx ny nz : nat) (pts : list pt) : Prop :=
  (forall v, In v (map pp pts) <-> on_lattice b nx ny nz v /\ S v) /\ NoDup (map pp pts) /\
  (forall p, In p pts -> pm p = mass / INR (length pts)) /\ (pts <> [] -> total_mass pts = mass).
Definition in_span (b : span) : region := fun v => let '(x, y, z) := v in s_x0 b <= x <= s_x1 b /\ s_y0 b <= y <= s_y1 b /\ s_z0 b <= z <= s_z1 b.
(* the solid lies within the box the lattice divides *)
Definition encloses (b : span) (S : region) : Prop := forall v, S v -> in_span b v.
