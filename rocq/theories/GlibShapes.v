(* Model of /repo/newt/glibShapes.py.  Numbers of grid points are nat, floats exact reals; the arrays are lists of point masses.
   Sizes and masses are Python floats, so a zero divisor raises ZeroDivisionError unless a numpy value is involved, which
   gives inf or nan (NotFinite). *)
From Verif Require Export Glib Res.
From Coq Require Import Reals List ZArith Bool.
From Verif Require Import Qlm MathSpec.
Import ListNotations.
Open Scope R_scope.

(* glibShapes.py:13-33 cart_2_cyl, one row *)
Definition cart_2_cyl (v : vec) : vec := let '(x, y, z) := v in (sqrt (x ^ 2 + y ^ 2), pymod (arctan2 y x + 2 * PI) (2 * PI), z).
(* glibShapes.py:36-55 cyl_2_cart, one row *)
Definition cyl_2_cart (v : vec) : vec := let '(r, q, z) := v in (r * cos q, r * sin q, z).

(* (i - (n-1)/2) * step *)
Definition cell (n : nat) (step : R) (i : nat) : R := (INR i - (INR n - 1) / 2) * step.
(* for k in range(nz): for l in range(ny): for m in range(nx) *)
Definition grid (nx ny nz : nat) (fx fy fz : nat -> R) : list vec :=
  flat_map (fun k => flat_map (fun l => map (fun m => (fx m, fy l, fz k)) (seq 0 nx)) (seq 0 ny)) (seq 0 nz).
Definition sumR (l : list R) : R := fold_right Rplus 0 l.
(* pointArray[:, 0] = pm; keep the points; pointArray[:, 0] *= mass/np.sum(pointArray[:, 0]).  An empty array stays empty *)
Definition renormalise (mass pm : R) (pts : list vec) : res (list pt) :=
  match pts with
  | [] => Ok []
  | _ => let s := sumR (map (fun _ => pm) pts) in if is0 s then Err NotFinite else Ok (map (fun v => mkpt (pm * (mass / s)) v) pts)
  end.
(* np.array of an empty list has no columns: pointArray[:, 0] is an IndexError *)
Definition renormalise_list (mass pm : R) (pts : list vec) : res (list pt) :=
  match pts with [] => Err IndexError | _ => renormalise mass pm pts end.
Definition no_cells (n : nat) : bool := Nat.eqb n 0.
Definition sq (x : R) : R := x ^ 2.
Definition rad (x y : R) : R := sqrt (x ^ 2 + y ^ 2).

(* glibShapes.py:58-97 sphere *)
Definition g_sphere (mass Rad : R) (N : nat) : res (list pt) :=
  if no_cells N then Err ZeroDivision else
  let c := cell N (Rad / INR N) in
  renormalise mass (mass / INR N ^ 3) (filter (fun v => let '(x, y, z) := v in rle (sqrt (x ^ 2 + y ^ 2 + z ^ 2)) Rad) (grid N N N c c c)).
(* glibShapes.py:100-140 rectangle; the y positions are centred with nx (:137) *)
Definition g_rectangle (mass x y z : R) (nx ny nz : nat) : res (list pt) :=
  if (no_cells nx || no_cells ny || no_cells nz)%bool then Err ZeroDivision else
  Ok (map (fun v => mkpt (mass / INR (nx * ny * nz)) v) (grid nx ny nz (cell nx (x / INR nx)) (cell nx (y / INR ny)) (cell nz (z / INR nz)))).
(* glibShapes.py:143-194 annulus *)
Definition g_annulus (mass r1 r2 t : R) (nx nz : nat) : res (list pt) :=
  if (no_cells nx || no_cells nz)%bool then Err ZeroDivision else
  let zg := t / INR nz in let xg := r2 * 2 / INR nx in
  let v := PI * (r2 ^ 2 - r1 ^ 2) * t in
  if is0 v then Err ZeroDivision else
  renormalise_list mass (mass / v * xg * xg * zg)
    (filter (fun p => let '(x, y, _) := p in (rle (r1 ^ 2) (x ^ 2 + y ^ 2) && rle (x ^ 2 + y ^ 2) (r2 ^ 2))%bool) (grid nx nx nz (cell nx xg) (cell nx xg) (cell nz zg))).
(* the x and y ranges of a sector of half angle beta (:220-228, :318-326, :445-453); inner: the smallest radius *)
Definition x_min (beta r1 r2 : R) : R := if rlt beta (PI / 2) then cos beta * r1 else cos beta * r2.
Definition y_max (beta r2 : R) : R := if rlt beta (PI / 2) then sin beta * r2 else r2.
Definition sector_grid (beta r1 r2 : R) (nx nz : nat) (fz : nat -> R) : list vec :=
  let xmin := x_min beta r1 r2 in let ymax := y_max beta r2 in
  grid nx nx nz (fun m => cell nx ((r2 - xmin) / INR nx) m + (r2 + xmin) / 2) (cell nx (2 * ymax / INR nx)) fz.
Definition sector_cell (beta r1 r2 zg : R) (nx : nat) : R := (r2 - x_min beta r1 r2) / INR nx * (2 * y_max beta r2 / INR nx) * zg.
(* glibShapes.py:197-255 cone; xmin is 0 for beta < pi/2 *)
Definition g_cone (mass Rad H beta : R) (nx nz : nat) : res (list pt) :=
  if no_cells nz then Err ZeroDivision else
  let v := PI * H * Rad ^ 2 / 3 in
  if is0 v then Err ZeroDivision else
  let zg := H / INR nz in
  renormalise mass (mass / v * sector_cell beta 0 Rad zg nx)
    (filter (fun p => let '(x, y, z) := p in (rle (Rabs (arctan2 y x)) beta && rle (rad x y ^ 2) (Rad ^ 2 * (1 - z / H) ^ 2))%bool)
      (sector_grid beta 0 Rad nx nz (fun k => cell nz zg k + H / 2))).
(* glibShapes.py:258-296 spherical_random_shell; u: the pairs drawn uniformly from [-1,1)^2 *)
Definition g_random_shell (mass r : R) (u : list (R * R)) : res (list pt) :=
  match filter (fun p => rlt (fst p ^ 2 + snd p ^ 2) 1) u with
  | [] => Err ZeroDivision                                      (* mass/nNew *)
  | keep => Ok (map (fun p => let s := fst p ^ 2 + snd p ^ 2 in
      mkpt (mass / INR (length keep)) (2 * fst p * sqrt (1 - s) * r, 2 * snd p * sqrt (1 - s) * r, (1 - 2 * s) * r)) keep)
  end.
(* glibShapes.py:299-361 wedge *)
Definition g_wedge (mass r1 r2 t beta : R) (nx nz : nat) : res (list pt) :=
  if no_cells nz then Err ZeroDivision else
  let v := PI * (r2 ^ 2 - r1 ^ 2) * t in
  if is0 v then Err ZeroDivision else
  let zg := t / INR nz in
  renormalise mass (mass / v * sector_cell beta r1 r2 zg nx)
    (filter (fun p => let '(x, y, _) := p in (rle (Rabs (arctan2 y x)) beta && rle (rad x y) r2 && rle r1 (rad x y))%bool)
      (sector_grid beta r1 r2 nx nz (cell nz zg))).
(* glibShapes.py:364-422 trapezoid *)
Definition g_trapezoid (mass r1 r2 t beta : R) (nx nz : nat) : res (list pt) :=
  if no_cells nz then Err ZeroDivision else
  let v := PI * (r2 ^ 2 - r1 ^ 2) * t in
  if is0 v then Err ZeroDivision else
  if rle (PI / 2) beta then Ok (repeat (mkpt 0 (0, 0, 0)) (nx * nx * nz)) else
  let xc := r1 * cos beta in let xf := r2 * cos beta in let d := r2 * sin beta in
  let zg := t / INR nz in let xg := (xf - xc) / INR nx in let yg := 2 * d / INR nx in
  renormalise mass (mass / v * xg * yg * zg)
    (filter (fun p => let '(x, y, _) := p in rle (Rabs (arctan2 y x)) beta)
      (grid nx nx nz (fun m => cell nx xg m + (xf + xc) / 2) (cell nx yg) (cell nz zg))).
(* glibShapes.py:425-492 outer_cone *)
Definition g_outer_cone (mass r1 r2 H beta : R) (nx nz : nat) : res (list pt) :=
  if no_cells nz then Err ZeroDivision else
  if is0 (r2 - r1) then Err ZeroDivision else
  let Hp := H * r2 / (r2 - r1) in
  let v := beta * (Hp * r2 ^ 2 / 3 - H * r1 ^ 2 - (Hp - H) * r1 ^ 2 / 3) in
  if is0 v then Err ZeroDivision else
  let zg := H / INR nz in
  let tanphi := H / (r2 - r1) in
  if is0 tanphi then Err ZeroDivision else
  renormalise mass (mass / v * sector_cell beta r1 r2 zg nx)
    (filter (fun p => let '(x, y, z) := p in (rle (Rabs (arctan2 y x)) beta && rle (rad x y) (r2 - z / tanphi) && rle r1 (rad x y))%bool)
      (sector_grid beta r1 r2 nx nz (fun k => cell nz zg k + H / 2))).
(* glibShapes.py:495-548 tri_prism; y2 < y1 returns the empty list *)
Definition g_tri_prism (mass d y1 y2 t : R) (nx ny nz : nat) : res (list pt) :=
  if rlt y2 y1 then Ok [] else
  if (no_cells nx || no_cells nz)%bool then Err ZeroDivision else
  let v := t * (y2 - y1) * d / 2 in
  if is0 v then Err ZeroDivision else
  let base := Rmax 0 y2 - Rmin 0 y1 in
  let zg := t / INR nz in let xg := d / INR nx in let yg := base / INR ny in
  renormalise_list mass (mass / v * (xg * yg * zg / 2))
    (filter (fun p => let '(x, y, _) := p in (rle (x * y1) (y * d) && rle (y * d) (x * y2))%bool)
      (grid nx ny nz (fun m => cell nx xg m + d / 2) (fun l => cell ny yg l + base / 2) (cell nz zg))).
(* glibShapes.py:551-615 tetrahedron *)
Definition g_tetrahedron (mass x y1 y2 z : R) (nx ny nz : nat) : res (list pt) :=
  if rlt y2 y1 then Ok [] else
  if (no_cells nx || no_cells nz)%bool then Err ZeroDivision else
  let v := z * (y2 - y1) * x / 6 in
  if is0 v then Err ZeroDivision else
  let base := Rmax 0 y2 - Rmin 0 y1 in
  let zg := z / INR nz in let xg := x / INR nx in let yg := base / INR ny in
  renormalise mass (mass / v * (xg * yg * zg / 2))
    (filter (fun p => let '(xv, yv, zv) := p in (rle (xv * y1) (yv * x) && rle (yv * x) (xv * y2) && rle zv (z * (1 - xv / x)))%bool)
      (grid nx ny nz (fun m => cell nx xg m + x / 2) (fun l => cell ny yg l + base / 2) (fun k => cell nz zg k + z / 2))).
(* glibShapes.py:618-675 ngon_prism; phih = pi/N; N = 1 and N = 2, where tan is 0 or undefined, are NotFinite *)
Definition g_ngon_prism (mass H a : R) (N nx nz : nat) : res (list pt) :=
  if (no_cells N || no_cells nz)%bool then Err ZeroDivision else
  if (N <=? 2)%nat then Err NotFinite else
  let phih := PI / INR N in
  let b := a / (2 * tan phih) in let d := a / (2 * sin phih) in
  let zg := H / INR nz in let xg := 2 * d / INR nx in
  let v := INR N * H * a * b / 2 in
  let pts := filter (fun p => let '(x, y, _) := p in
      let q0 := pymod (arctan2 y x) (2 * phih) in let q := if rlt phih q0 then q0 - 2 * phih else q0 in
      rle (rad x y * cos q) b) (grid nx nx nz (cell nx xg) (cell nx xg) (cell nz zg)) in
  match pts with [] => Ok [] | _ => if is0 v then Err NotFinite else renormalise mass (mass / v * (xg * xg * zg / 2)) pts end.
(* glibShapes.py:678-750 pyramid *)
Definition g_pyramid (mass x y z : R) (nx ny nz : nat) : res (list pt) :=
  if (no_cells nx || no_cells ny || no_cells nz)%bool then Err ZeroDivision else
  if is0 (z * y * x / 3) then Err ZeroDivision else
  let zg := z / INR nz in let xg := x / INR nx in let yg := y / INR ny in
  renormalise mass (mass / (z * y * x / 3) * (xg * yg * zg / 3))
    (filter (fun p => let '(xv, yv, zv) := p in
       let yx := yv * x / 2 in let xy := xv * y / 2 in let xr := 2 * xv / x in let yr := 2 * yv / y in
       ((rle xy yx && rle (- yx) xy && rle zv (z * (1 - yr))) || (rle yx xy && rle xy (- yx) && rle zv (z * (1 + yr)))
        || (rle xy yx && rle xy (- yx) && rle zv (z * (1 + xr))) || (rle yx xy && rle (- yx) xy && rle zv (z * (1 - xr))))%bool)
      (grid nx ny nz (cell nx xg) (cell ny yg) (fun k => cell nz zg k + z / 2))).
(* glibShapes.py:753-805 cylhole *)
Definition g_cylhole (mass r Rad : R) (nx nz : nat) : res (list pt) :=
  if (no_cells nx || no_cells nz)%bool then Err ZeroDivision else
  let v := 16 * Rad * r ^ 2 / 3 in
  if is0 v then Err ZeroDivision else
  let zg := 2 * Rad / INR nz in let xg := 2 * r / INR nx in
  renormalise mass (mass / v * xg * xg * zg)
    (filter (fun p => let '(x, y, z) := p in (rle (rad x y) r && rle (rad y z) Rad)%bool) (grid nx nx nz (cell nx xg) (cell nx xg) (cell nz zg))).
(* glibShapes.py:808-866 platehole; tan theta needs cos theta <> 0 *)
Definition g_platehole (mass t r theta : R) (nx ny nz : nat) : res (list pt) :=
  if (no_cells ny || no_cells nz)%bool then Err ZeroDivision else
  if is0 (cos theta) then Err NotFinite else
  let s := tan theta in let x := 2 * (r + t * s / 2) in
  let zg := t / INR nz in let xg := 2 * x / INR nx in let yg := 2 * r / INR ny in
  let v := PI * sqrt (1 + s ^ 2) * t * r ^ 2 in
  let pts := filter (fun p => let '(x, y, z) := p in rle (y ^ 2 + (x - z * s) ^ 2) (r ^ 2)) (grid nx ny nz (cell nx xg) (cell ny yg) (cell nz zg)) in
  match pts with [] => Ok [] | _ => if is0 v then Err NotFinite else renormalise mass (mass / v * xg * yg * zg) pts end.
