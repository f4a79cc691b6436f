(* Model of /repo/matlab-src (GNU Octave).  An N x 4 array [m x y z] is a list of points; doubles are exact reals;
   NaN and Inf results are Err NotFinite.  Octave division by zero raises nothing.
   Not modelled: displayPoints*.m, SampleDemo.m (plots), scanToPMArray.m (griddata), genPointMassRoundXSheet.m (empty). *)
From Verif Require Export Glib Res MathSpec.
From Coq Require Import Reals List ZArith Bool.
From Verif Require Import Qlm GlibShapes Cplx.
Import ListNotations.
Open Scope R_scope.

(* fundamentalConstants.m:17 *)
Definition o_G : R := 667428 / 10 ^ 16.
(* Gmmr2Array.m:17-30; rvec' * w sums w_i rvec_i.  A zero r makes 0*Inf = NaN *)
Definition o_Gmmr2Array (mass1 : pt) (mass2 : list pt) : res vec :=
  let rvec := map (fun p => vsub (pp p) (pp mass1)) mass2 in
  let r := map (fun v => let '(x, y, z) := v in sqrt (x * x + y * y + z * z)) rvec in
  if existsb is0 r then Err NotFinite else
  let w := map (fun pr => o_G * pm mass1 * pm (fst pr) / snd pr ^ 3) (combine mass2 r) in
  Ok (fold_left vadd (map (fun wr => vscal (fst wr) (snd wr)) (combine w rvec)) v0).
(* pointMatrixGravity.m:18-33 *)
Definition o_pointMatrixGravity (array1 array2 : list pt) : res (vec * vec) :=
  fold_left (fun acc p =>
    do a <- acc;
    do iforce <- o_Gmmr2Array p array2;
    let itorque := vcross (pp p) iforce in
    Ok (vadd (fst a) iforce, vadd (snd a) itorque)) array1 (Ok (v0, v0)).
(* translatePMArray.m:18-23 *)
Definition o_translatePMArray (array : list pt) (t : vec) : list pt := map (fun p => mkpt (pm p) (vadd (pp p) t)) array.
(* rotatePMArray.m:19-43 *)
Definition o_matrix (angle : R) (u : vec) : mat :=
  let '(x, y, z) := u in let c := cos angle in let s := sin angle in let t := 1 - c in
  ((t * x * x + c, t * x * y + s * z, t * x * z - s * y),
   (t * x * y - s * z, t * y * y + c, t * y * z + s * x),
   (t * x * z + s * y, t * y * z - s * x, t * z * z + c)).
Definition o_rotatePMArray (array : list pt) (angle : R) (rotVec : vec) : res (list pt) :=
  let modulus := sqrt (vdot rotVec rotVec) in
  let '(a, b, c) := rotVec in
  match array with
  | [] => Ok []
  | _ => if is0 modulus then Err NotFinite
         else Ok (map (fun p => mkpt (pm p) (mvec (o_matrix angle (a / modulus, b / modulus, c / modulus)) (pp p))) array)
  end.

(* YLM.m:16-20; legendre_sphPlm is GSL's normalised associated Legendre function with the Condon-Shortley phase,
   a domain error for m < 0 or m > l *)
Definition o_YLM (l m : Z) (theta phi : R) : res C :=
  if ((m <? 0)%Z || (l <? m)%Z)%bool then Err ValueError
  else Ok (Cmult (RtoC (sqrt ((2 * IZR l + 1) / (4 * PI) * (zfact (l - m) / zfact (l + m))) * Plm l m (cos theta))) (cexpi (IZR m * phi))).
(* computeMoments.m:40-52: theta *)
Definition o_theta (x y z : R) : R :=
  let rxy := sqrt (x ^ 2 + y ^ 2) in
  if is0 rxy then (if rlt 0 z then 0 else if rlt z 0 then PI else 0) else atan (z / rxy) + PI / 2.
(* computeMoments.m:54-72: phi *)
Definition o_phi (x y : R) : R :=
  let phi := if is0 x then (if rlt 0 y then PI / 2 else if rlt y 0 then - PI / 2 else 0) else atan (y / x) in
  if rlt x 0 then phi + PI else phi.
(* computeMoments.m:20-76; 0^0 = 1 *)
Definition o_computeMoments (l m : Z) (mArray : list pt) : res C :=
  fold_left (fun acc p =>
    do moment <- acc;
    let '(x, y, z) := pp p in
    let r := sqrt (x ^ 2 + y ^ 2 + z ^ 2) in
    let theta := if rlt 0 r then o_theta x y z else 0 in
    let phi := if rlt 0 r then o_phi x y else 0 in
    do Y <- o_YLM l m theta phi;
    Ok (Cplus moment (Cmult (RtoC (pm p * r ^ Z.to_nat l)) (Cconj Y)))) mArray (Ok (RtoC 0)).
(* computeMomentSummary.m:25-34: rows [l m moment] *)
Definition o_computeMomentSummary (maxL : nat) (mArray : list pt) : res (list (Z * Z * C)) :=
  fold_left (fun acc lm =>
    do output <- acc;
    do q <- o_computeMoments (fst lm) (snd lm) mArray;
    Ok (output ++ (fst lm, snd lm, q) :: nil))
    (flat_map (fun l => map (fun m => (Z.of_nat l, Z.of_nat m)) (seq 0 (S l))) (seq 1 maxL)) (Ok []).

(* for i = 1:nx  for j = 1:ny  for k = 1:nz: the grid in this order *)
Definition o_grid (nx ny nz : nat) (fx fy fz : nat -> R) : list vec :=
  flat_map (fun i => flat_map (fun j => map (fun k => (fx i, fy j, fz k)) (seq 1 nz)) (seq 1 ny)) (seq 1 nx).
(* ( i - (n + 1)/2 ) * step *)
Definition o_cell (n : nat) (step : R) (i : nat) : R := (INR i - (INR n + 1) / 2) * step.
(* shapes/genPointMassAnnlSheet.m:16-60; point counts are natural numbers *)
Definition o_genPointMassAnnlSheet (mass iRadius oRadius thickness : R) (nx ny : nat) : res (list pt) :=
  let xgrid := thickness / INR nx in let ygrid := oRadius * 2 / INR ny in
  let volume := PI * (oRadius ^ 2 - iRadius ^ 2) * thickness in
  let pointMass := mass / volume * xgrid * ygrid * ygrid in
  let pts := filter (fun v => let '(x, y, z) := v in let pRadius := sqrt (y ^ 2 + z ^ 2) in (rle pRadius oRadius && rle iRadius pRadius)%bool)
     (o_grid nx ny ny (o_cell nx xgrid) (o_cell ny ygrid) (o_cell ny ygrid)) in
  match pts with
  | [] => Ok []
  | _ => let total := sumR (map (fun _ => pointMass) pts) in
         if (is0 volume || is0 mass || is0 (total / mass))%bool then Err NotFinite
         else Ok (map (fun v => mkpt (pointMass / (total / mass)) v) pts)
  end.
(* shapes/genPointMassRect.m:16-52 *)
Definition o_genPointMassRect (mass thickness width height : R) (nx ny nz : nat) : list pt :=
  let pointMass := mass / INR (nx * ny * nz) in
  map (fun v => mkpt pointMass v)
    (o_grid nx ny nz (o_cell nx (thickness / INR nx)) (o_cell ny (width / INR ny)) (o_cell nz (height / INR nz))).
(* shapes/genPointMassLine.m:16-23; zstart is not used *)
Definition o_genPointMassLine (eachMass x y zstart zspace : R) (N : nat) : list pt :=
  map (fun k => mkpt (1 * eachMass) (1 * x, 1 * y, INR k * zspace)) (seq 0 N).
(* shapes/genPointMassXRing.m:16-25; npoints = 0 leaves the output undefined *)
Definition o_genPointMassXRing (mass radius : R) (npoints : nat) : res (list pt) :=
  match npoints with
  | O => Err LookupFail
  | _ => Ok (map (fun i => let angle := 2 * PI / INR npoints * (INR i - 1) in mkpt (mass / INR npoints) (0, sin angle * radius, cos angle * radius)) (seq 1 npoints))
  end.

(* shapes/genPointMassRandomDisk.m:16-42; draws is what successive rand(1,2) return; None: more draws needed *)
Fixpoint o_disk_loop (ratio : R) (need : nat) (draws : list (R * R)) : option (list (R * R)) :=
  match need, draws with
  | O, _ => Some []
  | S n, [] => None
  | S n, (a, b) :: draws =>
      let t1 := a * 2 - 1 in let t2 := b * 2 - 1 in
      let rad := sqrt (t1 ^ 2 + t2 ^ 2) in
      if (rle ratio rad && rle rad 1)%bool then option_map (cons (t1, t2)) (o_disk_loop ratio n draws) else o_disk_loop ratio need draws
  end.
Definition o_genPointMassRandomDisk (pointsMass iRadius oRadius : R) (NPts : nat) (draws : list (R * R)) : res (option (list pt)) :=
  if (rlt iRadius 0 || rlt oRadius 0)%bool then Err ValueError
  else if rle oRadius iRadius then Err ValueError
  else Ok (option_map (map (fun t => mkpt (pointsMass * 1) (0, fst t * oRadius, snd t * oRadius))) (o_disk_loop (iRadius / oRadius) NPts draws)).
(* shapes/genPointMassRandomRectangle.m:16-28; draws = rand(NPts, 2) *)
Definition o_genPointMassRandomRectangle (pointsMass yWidth zWidth : R) (draws : list (R * R)) : res (list pt) :=
  if (rlt zWidth 0 || rlt yWidth 0)%bool then Err ValueError
  else Ok (map (fun ab => mkpt (pointsMass * 1) (0, (fst ab * 2 - 1) * yWidth / 2, (snd ab * 2 - 1) * zWidth / 2)) draws).
(* shapes/genPointMassSphericalRandomShell.m:17-43; draws = rand(floor(N*4/pi), 2) *)
Definition o_genPointMassSphericalRandomShell (M Rad : R) (draws : list (R * R)) : list pt :=
  let x := map (fun ab => (2 * fst ab - 1, 2 * snd ab - 1)) draws in
  let keep := filter (fun p => rlt (fst p ^ 2 + snd p ^ 2) 1) x in
  map (fun p => let x2 := fst p ^ 2 + snd p ^ 2 in let sx2 := sqrt (1 - x2) in
       mkpt (1 * M / sumR (map (fun _ => 1) keep)) (2 * fst p * sx2 * Rad, 2 * snd p * sx2 * Rad, (1 - 2 * x2) * Rad)) keep.

(* shapes/genPointMassArrayFrom2DArray.m:17-82.  A r c: entry of row r, column c, None for NaN; zSpacing <> 0.
   lib holds the z positions; o( o(:,1) > 0, :) drops the zero rows of the preallocation and every point when m <= 0 *)
Definition o_genPointMassArrayFrom2DArray (A : nat -> nat -> option R) (nrows ncols : nat) (xs ys zs density : R) : list pt :=
  let m := xs * ys * zs * density in
  let xpos c := (xs - xs * INR ncols) / 2 + xs * INR c in
  let ypos r := (ys - ys * INR nrows) / 2 + ys * INR r in
  let col r c := match A r c with None => 0%Z | Some h => Int_part (h / zs) end in
  filter (fun p => rlt 0 (pm p))
    (flat_map (fun c => flat_map (fun r =>
       if (0 <? col r c)%Z then map (fun k => mkpt (1 * m) (1 * xpos c, 1 * ypos r, INR k * zs + zs / 2)) (seq 0 (Z.to_nat (col r c))) else [])
     (seq 0 nrows)) (seq 0 ncols)).
(* scanCenterAndRemoveLinear.m:16-34: rows [x y z]; b is what ols(d(:,3), d(:,1:2)) returns for the centred columns *)
Definition o_mean (l : list R) : R := sumR l / INR (length l).
Definition o_centre (d : list vec) : list vec :=
  let mx := o_mean (map (fun v => fst (fst v)) d) in let my := o_mean (map (fun v => snd (fst v)) d) in
  map (fun v => let '(x, y, z) := v in (x - mx, y - my, z)) d.
Definition o_scanCenterAndRemoveLinear (ols : list vec -> R * R) (d : list vec) : list vec :=
  let d1 := o_centre d in
  let '(b1, b2) := ols d1 in
  let d2 := map (fun v => let '(x, y, z) := v in (x, y, z - (x * b1 + y * b2))) d1 in
  let mz := o_mean (map snd d2) in
  map (fun v => let '(x, y, z) := v in (x * / 1000, y * / 1000, (z - mz) * / 1000)) d2.
(* scatterPMMassesYZGrid.m:18-26: grid is pendulumPMScanGridSize of the (absent) run3147PendulumParameters, draws = randn(rows(M), 2);
   columns 2:3 are x and y *)
Definition o_scatter (grid : R) (draws : list (R * R)) (M : list pt) : list pt :=
  map (fun pd => let '(p, (a, b)) := pd in let '(x, y, z) := pp p in mkpt (pm p) (x + grid * a, y + grid * b, z)) (combine M draws).
