(* Specification for newt/qlmACH.py: what it means for an array to hold the low moments of a
   homogeneous body of given density, and the solids of that module which qlm.py does not have. *)
From Verif Require Export SolidSpec.
Open Scope C_scope.

(* q holds, for every degree l <= 5 and order m with [ok l |m|], the moment
   rho * integral over B of r^l conj(Y_lm); rows above 5 and the corners |m| > l are zero.
   V is the volume as the iterated integral gives it (its sign is that of the parametrisation). *)
Definition density_moments (ok : Z -> Z -> bool) (q : marr) (rho : R) (B : body) : Prop :=
  exists V : R, V <> 0%R /\ B (fun _ _ _ => 1) (RtoC V) /\
  (forall l m, (0 <= l <= deg q)%Z -> (l <= 5)%Z -> (Z.abs m <= l)%Z -> ok l (Z.abs m) = true ->
     exists I, B (fun x y z => rsolid l m (x, y, z)) I /\ mom q l m = RtoC (rho * (Rabs V / V)) * I) /\
  (forall l m, (5 < l <= deg q)%Z -> (Z.abs m <= deg q)%Z -> mom q l m = 0) /\
  corners0 q.
(* all entries *)
Definition every (l m : Z) : bool := true.
(* all entries but one *)
Definition but (l0 m0 l m : Z) : bool := negb ((l =? l0) && (m =? m0))%Z.

(* frustum of a cone about the z axis: radius ra at height z0, rb at height z0 + h *)
Definition frustum (z0 h ra rb : R) : body := fun f I =>
  is_int3 0 (2 * PI) (fun _ => z0) (fun _ => (z0 + h)%R) (fun _ _ => 0%R) (fun _ z => (ra + (rb - ra) * ((z - z0) / h))%R)
    (fun ph z r => RtoC r * f (r * cos ph)%R (r * sin ph)%R z) I.
(* isosceles trapezoid of width w1 at x = 0 and w2 at x = h, thickness t *)
Definition trapezoidal_plate (t w1 w2 h : R) : body := fun f I =>
  is_int3 0 h (fun x => (- ((w1 + (w2 - w1) * (x / h)) / 2))%R) (fun x => ((w1 + (w2 - w1) * (x / h)) / 2)%R)
    (fun _ _ => (- t / 2)%R) (fun _ _ => (t / 2)%R) f I.
(* the part x >= d of the disc of radius r, thickness t; the abscissa is x = r cos u, dx = r sin u du *)
Definition cylinder_segment (t r d : R) : body := fun f I =>
  is_int3 0 (acos (d / r)) (fun u => (- (r * sin u))%R) (fun u => (r * sin u)%R) (fun _ _ => (- t / 2)%R) (fun _ _ => (t / 2)%R)
    (fun u y z => RtoC (r * sin u) * f (r * cos u)%R y z) I.
(* the hole of radius r drilled through a plate |z| <= t/2 along the direction (sin th, 0, cos th):
   at height z an ellipse centred at z tan th, half-axes r / cos th and r *)
Definition slanted_hole (t r th : R) : body := fun f I =>
  is_int3 0 (2 * PI) (fun _ => 0%R) (fun _ => r) (fun _ _ => (- t / 2)%R) (fun _ _ => (t / 2)%R)
    (fun ph s z => RtoC (s / cos th) * f (z * tan th + s * cos ph / cos th)%R (s * sin ph)%R z) I.
