(* Model of /repo/newt/gShapeGL.py.  gl n: the points and weights np.polynomial.legendre.leggauss(n) returns (numpy, not modelled;
   GLSpec.v says what they are).  Counts are nat, floats exact reals.  leggauss(0) raises ValueError. *)
From Verif Require Export Glib Res.
From Coq Require Import Reals List ZArith Bool.
From Verif Require Import Qlm MathSpec GlibShapes.
Import ListNotations.
Open Scope R_scope.

Definition rule := list (R * R).
(* np.polynomial.legendre.leggauss(n): pairs (point, weight) *)
Definition leggauss (gl : nat -> rule) (n : nat) : res rule := if Nat.eqb n 0 then Err ValueError else Ok (gl n).
(* for k in range(nz): ... sz[k], wz[k]: IndexError when the rule has too few points *)
Definition first_n (n : nat) (r : rule) : res rule := if (n <=? length r)%nat then Ok (firstn n r) else Err IndexError.
(* the loops over k, l, m: rows [c*wx*wy*wz, fx(sx), fy(sy), fz(sz)] *)
Definition gl_grid (c : R) (rx ry rz : rule) (fx fy fz : R -> R) : list pt :=
  flat_map (fun z => flat_map (fun y => map (fun x => mkpt (c * (snd x * snd y * snd z)) (fx (fst x), fy (fst y), fz (fst z))) rx) ry) rz.
(* pointArray[:, 0] *= mass/np.sum(pointArray[:, 0]) *)
Definition correct_mass (mass : R) (pts : list pt) : res (list pt) :=
  match pts with
  | [] => Ok []
  | _ => let s := sumR (map pm pts) in if is0 s then Err NotFinite else Ok (map (fun p => mkpt (pm p * (mass / s)) (pp p)) pts)
  end.
(* np.array([]) has no columns *)
Definition correct_list (mass : R) (pts : list pt) : res (list pt) := match pts with [] => Err IndexError | _ => correct_mass mass pts end.

(* gShapeGL.py:10-51 rectangle *)
Definition gl_rectangle (gl : nat -> rule) (mass x y z : R) (dx dy dz : nat) : res (list pt) :=
  do rx <- leggauss gl dx; do ry <- leggauss gl dy; do rz <- leggauss gl dz;
  Ok (gl_grid (mass / 8) rx ry rz (fun s => s * x / 2) (fun s => s * y / 2) (fun s => s * z / 2)).
(* gShapeGL.py:54-102 sphere *)
Definition gl_sphere (gl : nat -> rule) (mass r : R) (dd : nat) : res (list pt) :=
  do rx <- leggauss gl dd;
  if is0 (4 / 3 * PI * r ^ 3) then Err ZeroDivision else
  let f := fun s => s * r in
  correct_list mass (filter (fun p => let '(x, y, z) := pp p in rle (x ^ 2 + y ^ 2 + z ^ 2) (r ^ 2)) (gl_grid (mass / (4 / 3 * PI * r ^ 3) * r ^ 3) rx rx rx f f f)).
(* gShapeGL.py:105-148 annulus; the z points come from leggauss(dd) too, and are multiplied by t *)
Definition gl_annulus (gl : nat -> rule) (mass iR oR t : R) (dd dz : nat) : res (list pt) :=
  do rx <- leggauss gl dd; do rz <- first_n dz rx;
  correct_list mass (filter (fun p => let '(x, y, _) := pp p in (rle (iR ^ 2) (x ^ 2 + y ^ 2) && rle (x ^ 2 + y ^ 2) (oR ^ 2))%bool)
    (gl_grid 1 rx rx rz (fun s => s * oR) (fun s => s * oR) (fun s => s * t))).
(* gShapeGL.py:151-193 cone.  (z/tanTheta)**2 with tanTheta = H/R: numpy value over Python float, so H = 0 gives inf or nan *)
Definition gl_cone (gl : nat -> rule) (mass Rad H : R) (dd dz : nat) : res (list pt) :=
  if is0 Rad then Err ZeroDivision else
  do rx <- leggauss gl dd; do rz <- first_n dz rx;
  if is0 H then Err NotFinite else
  correct_list mass (filter (fun p => let '(x, y, z) := pp p in rle (x ^ 2 + y ^ 2) ((z / (H / Rad)) ^ 2))
    (gl_grid 1 rx rx rz (fun s => s * Rad) (fun s => s * Rad) (fun s => s * H))).
(* gShapeGL.py:196-252 wedge; the range of x and y as in glibShapes *)
Definition gl_wedge (gl : nat -> rule) (mass iR oR t theta : R) (dd dz : nat) : res (list pt) :=
  let xmin := x_min theta iR oR in let ymax := y_max theta oR in
  do rx <- leggauss gl dd; do rz <- first_n dz rx;
  correct_mass mass (filter (fun p => let '(x, y, _) := pp p in (rle (Rabs (arctan2 y x)) theta && rle (rad x y) oR && rle iR (rad x y))%bool)
    (gl_grid 1 rx rx rz (fun s => s * ((oR - xmin) / 2) + (oR + xmin) / 2) (fun s => s * ymax) (fun s => s * t))).
(* gShapeGL.py:255-308 tri_prism; base is already half the width and is halved again (:297) *)
Definition gl_tri_prism (gl : nat -> rule) (mass d y1 y2 t : R) (dx dy dz : nat) : res (list pt) :=
  if rlt y2 y1 then Ok [] else
  let ymin := Rmin 0 y1 in let ymax := Rmax 0 y2 in
  let base := (ymax - ymin) / 2 in let yave := (ymax + ymin) / 2 in
  do rx <- leggauss gl dx; do ry <- leggauss gl dy; do rz <- leggauss gl dz;
  correct_list mass (filter (fun p => let '(x, y, _) := pp p in (rle (x * y1) (y * d) && rle (y * d) (x * y2))%bool)
    (gl_grid 1 rx ry rz (fun s => s * d / 2 + d / 2) (fun s => s * base / 2 + yave) (fun s => s * t / 2))).
