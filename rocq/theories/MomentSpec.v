(* Specification: multipole moments of a set of point masses. *)
From Verif Require Export Glib Arr.
Open Scope C_scope.

(* value at a point (as a triple) of the normalised regular solid harmonic
   nrm l m * S_l^m(x,y,z)  ( = r^l conj Y_lm, theorem C08_solid_is_sph_harm) *)
Definition rsolid (l m : Z) (v : vec) : C := let '(x, y, z) := v in RtoC (nrm l m) * solid l m x y z.
(* inner moment  q_lm = sum_i m_i r_i^l conj(Y_lm) *)
Definition inner_moment (pts : list pt) (l m : Z) : C := lsum (fun p => RtoC (pm p) * rsolid l m (pp p)) pts.
(* outer moment  Q_lm = sum_i m_i Y_lm / r_i^(l+1) = sum_i m_i conj(r^l conj Y)/r^(2l+1) *)
Definition isolid (l m : Z) (v : vec) : C := Cconj (rsolid l m v) / RtoC (vnorm v ^ Z.to_nat (2 * l + 1)).
Definition outer_moment (pts : list pt) (l m : Z) : C := lsum (fun p => RtoC (pm p) * isolid l m (pp p)) pts.

(* total mass *)
Definition total_mass (pts : list pt) : R := fold_right (fun p acc => (pm p + acc)%R) 0%R pts.
Definition scale_mass (c : R) (p : pt) : pt := mkpt (c * pm p)%R (pp p).

(* a point mass given in spherical coordinates (mass, r, theta, phi) *)
Record sphpt := mksph { s_m : R; s_r : R; s_th : R; s_ph : R }.
Definition cart (s : sphpt) : pt :=
  mkpt (s_m s) (s_r s * sin (s_th s) * cos (s_ph s), s_r s * sin (s_th s) * sin (s_ph s), s_r s * cos (s_th s))%R.

(* the origin test of the moment code *)
Definition at_origin (p : pt) : Prop := pp p = v0.
(* some point at the origin comes before a point away from it *)
Definition origin_before_other (pts : list pt) : Prop :=
  exists l1 p l2 q l3, pts = l1 ++ p :: l2 ++ q :: l3 /\ at_origin p /\ ~ at_origin q.

(* modified spherical Bessel functions i_n(x), x <> 0 (scipy.special.spherical_in):
   i_0 = sinh x/x, i_1 = cosh x/x - sinh x/x^2, i_{n+1} = i_{n-1} - (2n+1)/x i_n *)
Fixpoint sph_in_pair (n : nat) (x : R) : R * R :=   (* (i_n, i_{n+1}) *)
  match n with
  | O => (sinh x / x, cosh x / x - sinh x / x ^ 2)%R
  | S k => let p := sph_in_pair k x in (snd p, fst p - (2 * INR (S k) + 1) / x * snd p)%R
  end.
Definition spherical_in (n : Z) (x : R) : R := fst (sph_in_pair (Z.to_nat n) x).
(* inner Yukawa moment of points given in spherical coordinates *)
Definition yuk_moment (lmbd : R) (S : list sphpt) (l m : Z) : C :=
  lsum (fun s => RtoC (s_m s * spherical_in l (s_r s / lmbd)) * Cconj (sph_harm m l (s_ph s) (s_th s))) S.
