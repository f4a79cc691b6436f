(* Specification vocabulary for the point-mass theorems (independent of the code). *)
From Verif Require Export Glib.
From Coquelicot Require Export Coquelicot.
Open Scope R_scope.

(* the rows of a point-mass argument: a 1-D array [m,x,y,z] counts as one row *)
Definition rows (a : parr) : list pt := match a with Row p => p :: nil | Rows l => l end.
(* no point of l1 sits on a point of l2 *)
Definition apart (p q : pt) : Prop := pp p <> pp q.
Definition apart_all (l1 l2 : list pt) : Prop := forall p q, In p l1 -> In q l2 -> apart p q.
(* componentwise sum of two (force, torque) outcomes; fails if one fails *)
Definition radd (x y : res (vec * vec)) : res (vec * vec) :=
  do a <- x; do b <- y; Ok (vadd (fst a) (fst b), vadd (snd a) (snd b)).

(* f is the right-handed rotation by angle theta about the (non-zero) axis n *)
Record is_rotation (n : vec) (theta : R) (f : vec -> vec) : Prop := {
  rot_add : forall a b, f (vadd a b) = vadd (f a) (f b);
  rot_scal : forall c a, f (vscal c a) = vscal c (f a);
  rot_dot : forall a b, vdot (f a) (f b) = vdot a b;
  rot_cross : forall a b, f (vcross a b) = vcross (f a) (f b);
  rot_axis : f n = n;
  rot_angle : forall v, vdot n v = 0 ->
     f v = vadd (vscal (cos theta) v) (vscal (sin theta / vnorm n) (vcross n v))
}.

(* potential energies of a point mass m at (x,y,z) in the field of sources *)
Definition sep (q : pt) (x y z : R) : R :=
  let '(X, Y, Z) := pp q in sqrt ((x - X) ^ 2 + (y - Y) ^ 2 + (z - Z) ^ 2).
Definition newton_energy (srcs : list pt) (m x y z : R) : R :=
  fold_right (fun q acc => - (BIG_G * m * pm q / sep q x y z) + acc) 0 srcs.
Definition yukawa_energy (alpha lmbd : R) (srcs : list pt) (m x y z : R) : R :=
  fold_right (fun q acc => - (alpha * BIG_G * m * pm q * exp (- sep q x y z / lmbd) / sep q x y z) + acc) 0 srcs.

(* (fx,fy,fz) = - grad U at (x,y,z) *)
Definition minus_grad (U : R -> R -> R -> R) (x y z : R) (f : vec) : Prop :=
  let '(fx, fy, fz) := f in
  is_derive (fun t => U t y z) x (- fx) /\
  is_derive (fun t => U x t z) y (- fy) /\
  is_derive (fun t => U x y t) z (- fz).
