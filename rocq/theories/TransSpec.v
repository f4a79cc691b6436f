(* Specification vocabulary for translations of moments. *)
From Verif Require Export MomentSpec.
Open Scope C_scope.

(* a body moved by t *)
Definition moved (t : vec) (p : pt) : pt := mkpt (pm p) (vadd (pp p) t).
(* the value of the unnormalised regular solid harmonic at a vector *)
Definition S_ (l m : Z) (v : vec) : C := let '(x, y, z) := v in solid l m x y z.
(* moments divided by their normalisation: sum_i m_i S_l^m(r_i) for inner moments *)
Definition hat (f : Z -> Z -> C) (l m : Z) : C := f l m / RtoC (nrm l m).
(* the dual normalisation of outer moments *)
Definition hatQ (f : Z -> Z -> C) (l m : Z) : C := f l m * RtoC (nrm l m / (2 * IZR l + 1)).
(* pairing of inner and outer moments up to degree L: sum_l 1/(2l+1) sum_m q_lm Q_lm
   (times -4 pi G this is the truncated interaction energy) *)
Definition pairing (L : Z) (q Q : Z -> Z -> C) : C :=
  zsum 0 (L + 1) (fun l => zsum (- l) (l + 1) (fun m => q l m * Q l m / RtoC (2 * IZR l + 1))).
