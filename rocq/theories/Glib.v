(* Model of /repo/newt/glib.py (display_points, a plotting routine, is not modelled). *)
From Coq Require Export Reals Lra List Bool.
From Verif Require Export Res.
Export ListNotations.
Open Scope R_scope.

(* constants.py:10 BIG_G = 6.67428e-11 *)
Definition BIG_G : R := 667428 / 10 ^ 16.

(* three-vectors: numpy arrays of length 3 *)
Definition vec : Type := (R * R * R)%type.
Definition v0 : vec := (0, 0, 0).
Definition vadd (a b : vec) : vec :=
  let '(x, y, z) := a in let '(x', y', z') := b in (x + x', y + y', z + z').
Definition vsub (a b : vec) : vec :=
  let '(x, y, z) := a in let '(x', y', z') := b in (x - x', y - y', z - z').
Definition vscal (c : R) (a : vec) : vec := let '(x, y, z) := a in (c * x, c * y, c * z).
Definition vopp (a : vec) : vec := let '(x, y, z) := a in (- x, - y, - z).
Definition vdot (a b : vec) : R :=
  let '(x, y, z) := a in let '(x', y', z') := b in x * x' + y * y' + z * z'.
(* numpy.cross *)
Definition vcross (a b : vec) : vec :=
  let '(a1, a2, a3) := a in let '(b1, b2, b3) := b in
  (a2 * b3 - a3 * b2, a3 * b1 - a1 * b3, a1 * b2 - a2 * b1).
(* np.sqrt(np.sum(rvec**2)) *)
Definition vnorm (a : vec) : R := let '(x, y, z) := a in sqrt (x ^ 2 + y ^ 2 + z ^ 2).

(* a row [m, x, y, z] *)
Record pt := mkpt { pm : R; pp : vec }.
(* a point-mass argument: 1-D array (np.ndim == 1) or N x 4 array *)
Inductive parr := Row (p : pt) | Rows (l : list pt).

Definition vsum (l : list vec) : vec := fold_right vadd v0 l.
Definition is0 (x : R) : bool := if Req_EM_T x 0 then true else false.

(* glib.py:14-45 gmmr2_array.  The N x 4 branch computes the column of
   separations, their moduli and rvec.T.dot(G*m1*m2/r**3); a zero modulus makes
   every component nan (0*inf or 0/0), modelled as Err NotFinite. *)
Definition gmmr2_array (mass1 : pt) (mass2 : parr) : res vec :=
  match mass2 with
  | Row p2 =>
      let rvec := vsub (pp p2) (pp mass1) in
      let r := vnorm rvec in
      if is0 r then Err NotFinite
      else Ok (vscal (BIG_G * pm mass1 * pm p2 / r ^ 3) rvec)
  | Rows l =>
      let rvecs := map (fun p2 => vsub (pp p2) (pp mass1)) l in
      let rs := map vnorm rvecs in
      if existsb is0 rs then Err NotFinite
      else
        let ws := map (fun pr => BIG_G * pm mass1 * pm (fst pr) / snd pr ^ 3) (combine l rs) in
        Ok (vsum (map (fun wr => vscal (fst wr) (snd wr)) (combine ws rvecs)))
  end.

(* glib.py:48-86 yukawa_array; lmbd = 0 gives exp(-inf)*inf = nan. *)
Definition yuk_weight (coef m2 r lmbd : R) : R :=
  let fac := 1 / r ^ 3 + 1 / (r ^ 2 * lmbd) in coef * m2 * exp (- r / lmbd) * fac.
Definition yukawa_array (mass1 : pt) (mass2 : parr) (alpha lmbd : R) : res vec :=
  let coef := alpha * BIG_G * pm mass1 in
  match mass2 with
  | Row p2 =>
      let rvec := vsub (pp p2) (pp mass1) in
      let r := vnorm rvec in
      if (is0 r || is0 lmbd)%bool then Err NotFinite
      else Ok (vscal (yuk_weight coef (pm p2) r lmbd) rvec)
  | Rows l =>
      let rvecs := map (fun p2 => vsub (pp p2) (pp mass1)) l in
      let rs := map vnorm rvecs in
      if existsb (fun r => is0 r || is0 lmbd)%bool rs then Err NotFinite
      else
        let ws := map (fun pr => yuk_weight coef (pm (fst pr)) (snd pr) lmbd) (combine l rs) in
        Ok (vsum (map (fun wr => vscal (fst wr) (snd wr)) (combine ws rvecs)))
  end.

(* the loop   for k in range(len(mass1)): force += forceK; torque += torqueK
   of glib.py:115-120 and 155-160 *)
Fixpoint loop_force (f : pt -> res vec) (mass1 : list pt) (acc : vec * vec) : res (vec * vec) :=
  match mass1 with
  | nil => Ok acc
  | p :: rest =>
      do forceK <- f p;
      let torqueK := vcross (pp p) forceK in
      loop_force f rest (vadd (fst acc) forceK, vadd (snd acc) torqueK)
  end.

(* glib.py:89-122 point_matrix_gravity *)
Definition point_matrix_gravity (mass1 mass2 : parr) : res (vec * vec) :=
  match mass1 with
  | Row p => do force <- gmmr2_array p mass2; Ok (force, vcross (pp p) force)
  | Rows l => loop_force (fun p => gmmr2_array p mass2) l (v0, v0)
  end.

(* glib.py:125-162 point_matrix_yukawa *)
Definition point_matrix_yukawa (mass1 mass2 : parr) (alpha lmbd : R) : res (vec * vec) :=
  match mass1 with
  | Row p => do force <- yukawa_array p mass2 alpha lmbd; Ok (force, vcross (pp p) force)
  | Rows l => loop_force (fun p => yukawa_array p mass2 alpha lmbd) l (v0, v0)
  end.

(* glib.py:165-190 translate_point_array *)
Definition translate_pt (p : pt) (t : vec) : pt := mkpt (pm p) (vadd (pp p) t).
Definition translate_point_array (a : parr) (t : vec) : parr :=
  match a with Row p => Row (translate_pt p t) | Rows l => Rows (map (fun p => translate_pt p t) l) end.

(* 3x3 matrices (rows) *)
Definition mat : Type := (vec * vec * vec)%type.
Definition mvec (M : mat) (v : vec) : vec := let '(r1, r2, r3) := M in (vdot r1 v, vdot r2 v, vdot r3 v).
Definition mtr (M : mat) : mat :=
  let '((a, b, c), (d, e, f), (g, h, i)) := M in ((a, d, g), (b, e, h), (c, f, i)).
Definition mmul (M N : mat) : mat :=
  let '(r1, r2, r3) := M in
  let N' := mtr N in (mvec N' r1, mvec N' r2, mvec N' r3).
Definition madd (M N : mat) : mat :=
  let '(a, b, c) := M in let '(d, e, f) := N in (vadd a d, vadd b e, vadd c f).
Definition mscal (k : R) (M : mat) : mat := let '(a, b, c) := M in (vscal k a, vscal k b, vscal k c).
Definition mid : mat := ((1, 0, 0), (0, 1, 0), (0, 0, 1)).
Definition mdet (M : mat) : R := let '(a, b, c) := M in vdot a (vcross b c).

(* glib.py:202-208: the Rodrigues matrix for a unit axis *)
Definition rodrigues (unit : vec) (theta : R) : mat :=
  let '(u0, u1, u2) := unit in
  let W := ((0, - u2, u1), (u2, 0, - u0), (- u1, u0, 0)) in
  madd (madd mid (mscal (sin theta) W)) (mscal (2 * (sin (theta / 2)) ^ 2) (mmul W W)).

(* glib.py:193-219 rotate_point_array; rotVec = 0 divides by zero, so every
   rotated coordinate is nan (an N x 4 array with N = 0 has none). *)
Definition rotate_pt (M : mat) (p : pt) : pt := mkpt (pm p) (mvec M (pp p)).
Definition rot_matrix (theta : R) (rotVec : vec) : res mat :=
  let norm := sqrt (vdot rotVec rotVec) in
  if is0 norm then Err NotFinite else Ok (rodrigues (vscal (/ norm) rotVec) theta).
Definition rotate_point_array (a : parr) (theta : R) (rotVec : vec) : res parr :=
  match a with
  | Row p => do M <- rot_matrix theta rotVec; Ok (Row (rotate_pt M p))
  | Rows [] => Ok (Rows [])
  | Rows l => do M <- rot_matrix theta rotVec; Ok (Rows (map (rotate_pt M) l))
  end.
