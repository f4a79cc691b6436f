(* Specification: volume integrals over the solids of newt/qlm.py, as iterated Riemann
   integrals, and what it means for a moment array to be that of a homogeneous solid. *)
From Verif Require Export MomentSpec.
Open Scope C_scope.

(* v is the Riemann integral of the complex function f over [a,b] (oriented) *)
Definition is_CInt (f : R -> C) (a b : R) (v : C) : Prop :=
  is_RInt (fun t => Re (f t)) a b (Re v) /\ is_RInt (fun t => Im (f t)) a b (Im v).

(* I = int_a^b du int_{lo1 u}^{hi1 u} dv int_{lo2 u v}^{hi2 u v} dw  f u v w,
   all the inner integrals existing *)
Definition is_int3 (a b : R) (lo1 hi1 : R -> R) (lo2 hi2 : R -> R -> R)
    (f : R -> R -> R -> C) (I : C) : Prop :=
  exists (g : R -> R -> C) (h : R -> C),
    (forall u v, is_CInt (f u v) (lo2 u v) (hi2 u v) (g u v)) /\
    (forall u, is_CInt (g u) (lo1 u) (hi1 u) (h u)) /\
    is_CInt h a b I.

(* a density-one solid: which numbers are integrals of which functions over it *)
Definition body := (R -> R -> R -> C) -> C -> Prop.

(* the moment array of a homogeneous body of the given mass:
   q_lm = (mass / volume) * integral over the body of r^l conj(Y_lm), nothing at |m| > l *)
Definition moments_of_body (q : marr) (mass : R) (B : body) : Prop :=
  exists V : R, V <> 0%R /\ B (fun _ _ _ => 1) (RtoC V) /\
  (forall l m, (0 <= l <= deg q)%Z -> (Z.abs m <= l)%Z ->
     exists I, B (fun x y z => rsolid l m (x, y, z)) I /\ mom q l m = RtoC (mass / V) * I) /\
  corners0 q.

(* the body turned by the angle t about the z axis: integrate f(Rz(t) .) over B *)
Definition turned_z (t : R) (B : body) : body := fun f I =>
  B (fun x y z => f (x * cos t - y * sin t)%R (x * sin t + y * cos t)%R z) I.
(* union of n essentially disjoint bodies *)
Definition union_of (n : nat) (B : nat -> body) : body := fun f I =>
  exists J : nat -> C, (forall i, (i < n)%nat -> B i f (J i)) /\ I = nsum n J.

(* cylindrical shell sector: z in [-H/2, H/2], radius in [Ri, Ro], azimuth in [phic-phih, phic+phih];
   volume element r dz dr dphi *)
Definition annular_sector (H Ri Ro phic phih : R) : body := fun f I =>
  is_int3 (phic - phih) (phic + phih) (fun _ => Ri) (fun _ => Ro) (fun _ _ => (- H / 2)%R) (fun _ _ => (H / 2)%R)
    (fun ph r z => RtoC r * f (r * cos ph)%R (r * sin ph)%R z) I.
(* the full cylinder of height H and radius R centred on the origin *)
Definition solid_cylinder (H R : R) : body := annular_sector H 0 R PI PI.
(* cone sector: apex at (0,0,P), base radius R in the xy plane *)
Definition cone_sector (P R phic phih : R) : body := fun f I =>
  is_int3 (phic - phih) (phic + phih) (fun _ => 0%R) (fun _ => P) (fun _ _ => 0%R) (fun _ z => (R * (1 - z / P))%R)
    (fun ph z r => RtoC r * f (r * cos ph)%R (r * sin ph)%R z) I.
(* prism of height H centred on the xy plane over the triangle (0,0), (d,y1), (d,y2) *)
Definition triangular_prism (H d y1 y2 : R) : body := fun f I =>
  is_int3 0 d (fun x => (y1 * x / d)%R) (fun x => (y2 * x / d)%R) (fun _ _ => (- H / 2)%R) (fun _ _ => (H / 2)%R) f I.
(* box [-a/2,a/2] x [-b/2,b/2] x [-H/2,H/2] *)
Definition box (H a b : R) : body := fun f I =>
  is_int3 (- a / 2) (a / 2) (fun _ => (- b / 2)%R) (fun _ => (b / 2)%R) (fun _ _ => (- H / 2)%R) (fun _ _ => (H / 2)%R) f I.
(* regular N-gon prism of side a: N isosceles triangles of apothem a / (2 tan(pi/N)), the i-th
   with its axis at the angle phic + 2 pi i/N *)
Definition regular_prism (H a phic : R) (N : nat) : body :=
  union_of N (fun i => turned_z (phic + 2 * PI * INR i / INR N)
    (triangular_prism H (a / (2 * tan (PI / INR N))) (- a / 2) (a / 2))).
(* tetrahedron (0,0,0), (x,0,0), (0,y,0), (0,0,z) *)
Definition corner_tetrahedron (x y z : R) : body := fun f I =>
  is_int3 0 x (fun _ => 0%R) (fun u => (y * (1 - u / x))%R) (fun _ _ => 0%R) (fun u v => (z * (1 - u / x - v / y))%R) f I.
(* tetrahedron (0,0,0), (x,y1,0), (x,y2,0), (0,0,z): at height w the triangle is scaled by 1 - w/z *)
Definition apex_tetrahedron (x y1 y2 z : R) : body := fun f I =>
  is_int3 0 z (fun _ => 0%R) (fun w => (x * (1 - w / z))%R) (fun w u => (y1 * u / x)%R) (fun w u => (y2 * u / x)%R)
    (fun w u v => f u v w) I.
(* pyramid with base [-x,x] x [-y,y] and apex (0,0,z) *)
Definition rect_pyramid (x y z : R) : body := fun f I =>
  is_int3 0 z (fun w => (- x * (1 - w / z))%R) (fun w => (x * (1 - w / z))%R) (fun w u => (- y * (1 - w / z))%R) (fun w u => (y * (1 - w / z))%R)
    (fun w u v => f u v w) I.
(* ball of radius R in spherical coordinates (azimuth, polar angle, radius) *)
Definition solid_ball (R : R) : body := fun f I =>
  is_int3 0 (2 * PI) (fun _ => 0%R) (fun _ => PI) (fun _ _ => 0%R) (fun _ _ => R)
    (fun ph th r => RtoC (r ^ 2 * sin th) * f (r * sin th * cos ph)%R (r * sin th * sin ph)%R (r * cos th)%R) I.

(* a body is a (possibly partial) linear functional of the integrand: values are unique, and sums, multiples
   and conjugates of integrable functions are integrable.  All the bodies of this file are (VInt, QlmProofs) *)
Record regular (B : body) : Prop := {
  reg_ext : forall f g I, (forall x y z, f x y z = g x y z) -> B f I -> B g I;
  reg_scal : forall c f I, B f I -> B (fun x y z => c * f x y z) (c * I);
  reg_plus : forall f g I J, B f I -> B g J -> B (fun x y z => f x y z + g x y z) (I + J);
  reg_conj : forall f I, B f I -> B (fun x y z => Cconj (f x y z)) (Cconj I);
  reg_unique : forall f I J, B f I -> B f J -> I = J }.
