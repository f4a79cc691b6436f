(* Specification vocabulary of C61-C62: homogeneous bodies attracting each other. *)
From Coq Require Import Reals.
From Coquelicot Require Import Coquelicot.
From Verif Require Export SolidSpec TransSpec RotSpec.
From Verif Require Import Cplx.
Open Scope R_scope.

(* q holds the inner moments of the body B filled with the constant density d *)
Definition filled_moments (q : marr) (d : R) (B : body) : Prop :=
  (forall l m, (0 <= l <= deg q)%Z -> (Z.abs m <= l)%Z -> exists I, B (fun x y z => rsolid l m (x, y, z)) I /\ mom q l m = (RtoC d * I)%C) /\ corners0 q.
(* the body lies in the ball of radius r about the origin: an integral over it is at most a constant (twice the volume
   or more) times the largest value of the integrand in that ball *)
Definition confined (B : body) (r : R) : Prop := exists K, 0 <= K /\ forall f I e, 0 <= e -> B f I ->
  (forall x y z, vnorm (x, y, z) <= r -> Cmod (f x y z) <= e) -> Cmod I <= K * e.
(* the double integral over v in B1 and w in B2 of k v w.  Only the values of k at points of the balls of radii r1, r2
   that contain the bodies count: f is any extension of k for which the iterated integrals exist *)
Definition pair_integral (B1 : body) (r1 : R) (B2 : body) (r2 : R) (k : vec -> vec -> R) (I : R) : Prop :=
  exists (f : vec -> vec -> R) (g : vec -> R),
    (forall v w, vnorm v <= r1 -> vnorm w <= r2 -> f v w = k v w) /\
    (forall v, B2 (fun x y z => RtoC (f v (x, y, z))) (RtoC (g v))) /\
    B1 (fun x y z => RtoC (g (x, y, z))) (RtoC I).
(* attraction of a unit mass at a by one at b: potential energy, component along e, torque about z on the first *)
Definition near_energy (a b : vec) : R := / vnorm (vsub b a).
Definition pull (e a b : vec) : R := vdot e (vsub b a) / vnorm (vsub b a) ^ 3.
Definition twist (a b : vec) : R := pull (vcross (0, 0, 1) a) a b.
(* q holds the moments of the mass distribution D *)
Definition moments_of (q : marr) (D : body) : Prop :=
  (forall l m, (0 <= l <= deg q)%Z -> (Z.abs m <= l)%Z -> D (fun x y z => rsolid l m (x, y, z)) (mom q l m)) /\ corners0 q.
