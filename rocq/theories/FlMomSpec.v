(* Specification of C84: the accuracy of the library functions PG2Multi calls, and the quantities the error bounds are stated with. *)
From Coq Require Import Reals List ZArith.
From Coquelicot Require Import Coquelicot.
From Verif Require Export FloatSpec MomentSpec.
From Verif Require Import Cplx.
Open Scope R_scope.

(* np.arccos, np.arctan2, the power r**l of an array, and scipy.special.sph_harm *)
Record library := mklib { l_acos : R -> R; l_atan2 : R -> R -> R; l_pow : R -> nat -> R; l_sph : Z -> Z -> R -> R -> C }.
(* each has relative error at most 2u; arccos stays in [0, pi] *)
Definition accurate_lib (u : R) (lib : library) : Prop :=
  (forall c, -1 <= c <= 1 -> 0 <= l_acos lib c <= PI /\ Rabs (l_acos lib c - acos c) <= 2 * u * acos c) /\
  (forall y x, Rabs (l_atan2 lib y x - arctan2 y x) <= 2 * u * Rabs (arctan2 y x)) /\
  (forall r n, Rabs (l_pow lib r n - r ^ n) <= 2 * u * Rabs (r ^ n)).
(* sph_harm has absolute error at most eta for this degree and order *)
Definition sph_within (eta : R) (lib : library) (l m : Z) : Prop :=
  forall ph th, 0 <= th <= PI -> Cmod (l_sph lib m l ph th - sph_harm m l ph th)%C <= eta.
(* the sum of |mass| r^l *)
Definition moment_size (l : Z) (pts : list pt) : R := lsr (fun p => Rabs (pm p) * vnorm (pp p) ^ Z.to_nat l) pts.
(* every point is at least s times its distance from the origin away from the z axis *)
Definition off_axis (s : R) (pts : list pt) : Prop := forall p, In p pts -> let '(x, y, z) := pp p in s * vnorm (x, y, z) <= sqrt (x ^ 2 + y ^ 2).
