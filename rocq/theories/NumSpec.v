(* Specification for the numerically integrated moments (qlmNum.py, bigQlmNum.py). *)
From Verif Require Export BigSpec QlmNum.
Open Scope C_scope.

(* an integrator is accurate to eps: whenever the iterated integral of func(z,y,x) over
   x in [a,b], y in [gfun x, hfun x], z in [qfun x y, rfun x y] exists, the returned number is within eps of it *)
Definition accurate (eps : R) (tpl : integrator) : Prop :=
  forall func a b gfun hfun qfun rfun (v : R),
    is_int3 a b gfun hfun qfun rfun (fun x y z => RtoC (func z y x)) (RtoC v) ->
    (Rabs (tpl func a b gfun hfun qfun rfun - v) <= eps)%R.

(* every entry within |rho| eps of rho times the integral of the harmonic over the body *)
Definition approx_inner (eps : R) (q : marr) (rho : R) (B : body) : Prop :=
  (forall l m, (0 <= l <= deg q)%Z -> (Z.abs m <= l)%Z ->
     exists I, B (fun x y z => rsolid l m (x, y, z)) I /\ (Cmod (mom q l m - RtoC rho * I)%C <= Rabs rho * eps)%R) /\
  reality q /\ corners0 q.
Definition approx_outer (eps : R) (q : marr) (rho : R) (B : body) : Prop :=
  (forall l m, (0 <= l <= deg q)%Z -> (Z.abs m <= l)%Z ->
     exists I, B (fun x y z => isolid l m (x, y, z)) I /\ (Cmod (mom q l m - RtoC rho * I)%C <= Rabs rho * eps)%R) /\
  reality q /\ corners0 q.

(* the bodies, as (oriented) iterated integrals; cylindrical ones with the volume element r dz dr dphi *)
(* z in [h1,h2], radius in [Ri,Ro], azimuth in [-phih,phih] *)
Definition ring_sector (h1 h2 Ri Ro phih : R) : body := fun f I =>
  is_int3 (- phih) phih (fun _ => Ri) (fun _ => Ro) (fun _ _ => h1) (fun _ _ => h2)
    (fun ph r z => RtoC r * f (r * cos ph)%R (r * sin ph)%R z) I.
(* under the cone of height H at radius Ri and 0 at radius Ro *)
Definition conical_sector (H Ri Ro phih : R) : body := fun f I =>
  is_int3 (- phih) phih (fun _ => Ri) (fun _ => Ro) (fun _ _ => 0%R) (fun _ r => (H * (Ro - r) / (Ro - Ri))%R)
    (fun ph r z => RtoC r * f (r * cos ph)%R (r * sin ph)%R z) I.
(* between the planes x = Ri cos(phih) and x = Ro cos(phih), |azimuth| <= phih, z in [h1,h2] *)
Definition wedge (h1 h2 Ri Ro phih : R) : body := fun f I =>
  is_int3 (- phih) phih (fun ph => (Ri * cos phih / cos ph)%R) (fun ph => (Ro * cos phih / cos ph)%R) (fun _ _ => h1) (fun _ _ => h2)
    (fun ph r z => RtoC r * f (r * cos ph)%R (r * sin ph)%R z) I.
(* common part of the cylinder of radius r about the z axis and that of radius Rad about the x axis *)
Definition drilled_core (r Rad : R) : body := fun f I =>
  is_int3 (- r) r (fun x => (- sqrt (r ^ 2 - x ^ 2))%R) (fun x => sqrt (r ^ 2 - x ^ 2))
    (fun _ y => (- sqrt (Rad ^ 2 - y ^ 2))%R) (fun _ y => sqrt (Rad ^ 2 - y ^ 2)) f I.
(* the cylinder of radius r about the z axis between the planes z = x tan(th) -+ t / (2 cos th) *)
Definition oblique_core (t r th : R) : body := fun f I =>
  is_int3 (- r) r (fun x => (- sqrt (r ^ 2 - x ^ 2))%R) (fun x => sqrt (r ^ 2 - x ^ 2))
    (fun x _ => (x * tan th - t / cos th / 2)%R) (fun x _ => (x * tan th + t / cos th / 2)%R) f I.
