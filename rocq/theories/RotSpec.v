(* Specification vocabulary: rotations of space about z and y, and the Euler z-y-z rotation. *)
From Verif Require Export MomentSpec.
(* by angle a about the z axis, by angle b about the y axis (right handed, active) *)
Definition zrot (a : R) (v : vec) : vec := let '(x, y, z) := v in (cos a * x - sin a * y, sin a * x + cos a * y, z)%R.
Definition yrot (b : R) (v : vec) : vec := let '(x, y, z) := v in (cos b * x + sin b * z, y, - sin b * x + cos b * z)%R.
Definition euler (a b g : R) (v : vec) : vec := zrot a (yrot b (zrot g v)).
