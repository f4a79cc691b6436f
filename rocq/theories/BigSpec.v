(* Specification for bigQlm.annulus: the sector standing on the xy plane and its outer moments. *)
From Verif Require Export AchSpec.
Open Scope C_scope.

(* cylindrical shell sector standing on (H > 0) or hanging from (H < 0) the xy plane: z between 0 and H, radius
   in [Ri, Ro], azimuth in [phic-phih, phic+phih]; volume element r dz dr dphi *)
Definition standing_sector (H Ri Ro phic phih : R) : body := fun f I =>
  is_int3 (phic - phih) (phic + phih) (fun _ => Ri) (fun _ => Ro) (fun _ _ => Rmin 0 H) (fun _ _ => Rmax 0 H)
    (fun ph r z => RtoC r * f (r * cos ph)%R (r * sin ph)%R z) I.
(* v = rho * integral over B of the outer harmonic Y_lm / r^(l+1) *)
Definition is_outer_moment (rho : R) (B : body) (l m : Z) (v : C) : Prop :=
  exists I, B (fun x y z => isolid l m (x, y, z)) I /\ v = RtoC rho * I.
