(* Model of /repo/newt/shapes.py (class Shape and its subclasses).
   Simplifications: a CAD mesh is the set of points of the solid (GenCad.v); numpy results containing nan/inf are
   Err NotFinite; save_shape (shapes.py:34-56, writes files) is in Save.v. *)
From Verif Require Export MultipoleLib Translations BigQlm GenCad.
From Verif Require Import Cplx.
Open Scope R_scope.

(* shapes.py:21-32: the attributes *)
Record shape := mkshape { s_inner : bool; s_lmax : Z; s_qlm : res marr; s_com : res vec; s_mass : R; s_mesh : option mesh }.
(* :26-32 Shape.__init__(lmax, inner), lmax >= 0 *)
Definition shape_init (lmax : Z) (inner : bool) : shape := mkshape inner lmax (Ok (zeros lmax)) (Ok v0) 0 None.
Definition set_qlm (s : shape) q := mkshape (s_inner s) (s_lmax s) q (s_com s) (s_mass s) (s_mesh s).
Definition set_com (s : shape) c := mkshape (s_inner s) (s_lmax s) (s_qlm s) c (s_mass s) (s_mesh s).
Definition set_mesh (s : shape) m := mkshape (s_inner s) (s_lmax s) (s_qlm s) (s_com s) (s_mass s) m.
Definition set_inner (s : shape) b := mkshape b (s_lmax s) (s_qlm s) (s_com s) (s_mass s) (s_mesh s).

(* what a method leaves behind: the object and the exception raised, if any *)
Definition outcome : Type := (shape * option exn)%type.

(* one rotate_point_array call on the 1-d row [mass, com] *)
Definition rot_row (r : res parr) (theta : R) (axis : vec) : res parr := do a <- r; rotate_point_array a theta axis.
(* rotcom[1:4] *)
Definition row_pos (r : res parr) : res vec := do a <- r; match a with Row p => Ok (pp p) | Rows _ => Err IndexError end.
(* shapes.py:58-67 rotate: qlm, then the mesh, then the centre of mass *)
Definition shape_rotate (s : shape) (alpha beta gamma : R) : outcome :=
  let s1 := set_qlm s (do q <- s_qlm s; rotate_qlm q alpha beta gamma) in
  match rotate_mesh (s_mesh s1) alpha beta gamma with
  | Err e => (s1, Some e)
  | Ok m =>
      let s2 := set_mesh s1 (Some m) in
      let r0 := (do c <- s_com s2; Ok (Row (mkpt (s_mass s2) c))) in
      let r1 := rot_row r0 gamma (0, 0, 1) in
      let r2 := rot_row r1 beta (0, 1, 0) in
      let r3 := rot_row r2 alpha (0, 0, 1) in
      (set_com s2 (row_pos r3), None)
  end.

(* shapes.py:69-80 translate: com, then the mesh, then qlm *)
Definition shape_translate (s : shape) (t : vec) (to_inner : bool) : outcome :=
  let s1 := set_com s (do c <- s_com s; Ok (vadd c t)) in
  match translate_mesh (s_mesh s1) t with
  | Err e => (s1, Some e)
  | Ok m =>
      let s2 := set_mesh s1 (Some m) in
      if (s_inner s2 && to_inner)%bool then (set_qlm s2 (do q <- s_qlm s2; Ok (translate_qlm q t)), None)
      else if (s_inner s2 && negb to_inner)%bool then
        (set_qlm (set_inner s2 false) (do q <- s_qlm s2; translate_q2Q q t), None)
      else if (negb (s_inner s2) && negb to_inner)%bool then
        (set_qlm s2 (do q <- s_qlm s2; Ok (translate_Qlmb q t)), None)
      else (s2, Some ValueError)
  end.

(* qlmtot += x : numpy in-place addition; qlmtot starts as the integer 0 (None) *)
Definition acc_add (tot : option marr) (x : marr) : res (option marr) :=
  match tot with
  | None => Ok (Some x)
  | Some t =>
      if (deg t =? deg x)%Z then Ok (Some (mkarr (deg t) (fun i j => (at_ t i j + at_ x i j)%C)))
      else if (deg x =? 0)%Z then Ok (Some (mkarr (deg t) (fun i j => (at_ t i j + at_ x 0 0)%C)))
      else Err ValueError
  end.
(* shapes.py:116-119: the array to add, embedded to degree lmax when needed (embed_qlm returns the
   integer 0 for a negative degree) *)
Definition to_lmax (lmax : Z) (s : shape) : res emb :=
  do q <- s_qlm s;
  if (s_lmax s =? lmax)%Z then Ok (EArr q) else Ok (embed_qlm q lmax).
Definition qlm_step (lmax : Z) (acc : res (option marr)) (s : shape) : res (option marr) :=
  do t <- acc;
  do e <- to_lmax lmax s;
  match e with EZero => Ok t | EArr x => acc_add t x end.
Definition com_step (acc : res vec) (s : shape) : res vec :=
  do c <- acc; do c' <- s_com s; Ok (vadd c (vscal (s_mass s) c')).
(* com/mtot *)
Definition com_div (c : res vec) (mtot : R) : res vec :=
  do c <- c; if is0 mtot then Err NotFinite else Ok (vscal (/ mtot) c).
(* the argument of add: a Shape, a list (an element that is not a Shape is None) or something else *)
Inductive addarg := ArgShape (s : shape) | ArgList (l : list (option shape)) | ArgOther.
Fixpoint all_shapes (l : list (option shape)) : option (list shape) :=
  match l with
  | [] => Some []
  | None :: _ => None
  | Some s :: l => option_map (cons s) (all_shapes l)
  end.
Definition maxl (l : list shape) : Z := fold_right (fun s m => Z.max (s_lmax s) m) (match l with [] => 0%Z | s :: _ => s_lmax s end) l.
(* shapes.py:82-126 add.  The sums are local variables: an exception before :120 leaves the object as it was;
   sum_mesh (:124) runs after mass, com, qlm and lmax have been assigned. *)
Definition shape_add (s : shape) (arg : addarg) : outcome :=
  match (match arg with
         | ArgList l => match all_shapes l with Some l => Ok (s :: l) | None => Err AttributeError end
         | ArgShape s' => Ok (s :: s' :: nil)
         | ArgOther => Err TypeError end) with
  | Err e => (s, Some e)
  | Ok shape_list =>
      let lmax := maxl shape_list in
      if (forallb s_inner shape_list || forallb (fun x => negb (s_inner x)) shape_list)%bool then
        let com := fold_left com_step shape_list (Ok v0) in
        let mtot := fold_left (fun m x => m + s_mass x) shape_list 0 in
        match fold_left (qlm_step lmax) shape_list (Ok None) with
        | Err ValueError => (s, Some ValueError)
        | q =>
            let q' := (do t <- q; match t with Some t => Ok t | None => Ok (zeros lmax) end) in
            let s1 := mkshape (s_inner s) lmax q' (com_div com mtot) mtot (s_mesh s) in
            match sum_mesh (map s_mesh shape_list) with
            | Err e => (s1, Some e)
            | Ok m => (set_mesh s1 (Some m), None)
            end
        end
      else (s, Some TypeError)
  end.

(* ---- programs that use several named shapes ---- *)
Definition store := nat -> shape.
Inductive argname := NShape (j : nat) | NList (l : list (option nat)) | NOther.
Inductive op := ORotate (i : nat) (alpha beta gamma : R) | OTranslate (i : nat) (t : vec) (to_inner : bool)
  | OAdd (i : nat) (a : argname).
Definition put (st : store) (i : nat) (s : shape) : store := fun j => if Nat.eqb j i then s else st j.
Definition resolve (st : store) (a : argname) : addarg :=
  match a with
  | NShape j => ArgShape (st j)
  | NList l => ArgList (map (option_map st) l)
  | NOther => ArgOther
  end.
Definition call (st : store) (o : op) : nat * outcome :=
  match o with
  | ORotate i a b g => (i, shape_rotate (st i) a b g)
  | OTranslate i t b => (i, shape_translate (st i) t b)
  | OAdd i a => (i, shape_add (st i) (resolve st a))
  end.
(* every statement is executed; an exception is caught by the caller and the program goes on *)
Definition step (st : store) (o : op) : store := let '(i, (s, _)) := call st o in put st i s.
Definition run (ops : list op) (st : store) : store := fold_left step ops st.

(* ---- the subclasses ---- *)
Definition prim (inner : bool) (lmax : Z) (mass : R) (m : mesh) (q : res marr) : res shape :=
  match q with
  | Ok _ | Err NotFinite => Ok (mkshape inner lmax q (Ok v0) mass (Some m))
  | Err e => Err e
  end.
(* division by zero of python floats raises ZeroDivisionError; sizes are taken to be python floats *)
(* mass > 0 *)
Definition posm (mass : R) : bool := rlt 0 mass.
(* a += b on arrays of the same shape *)
Definition arr_add (a b : marr) : marr := mkarr (deg a) (fun i j => (at_ a i j + at_ b i j)%C).
(* shapes.py:130-143 Annulus; :141 divides by 2*phih*(Ro**2-Ri**2)*H *)
Definition Annulus (lmax : Z) (inner : bool) (mass H Ri Ro phic phih : R) : res shape :=
  prim inner lmax mass (cad_annulus (posm mass) H Ri Ro phic phih)
   (if inner then annulus lmax mass H Ri Ro phic phih
    else if is0 (2 * phih * (Ro ^ 2 - Ri ^ 2) * H) then Err ZeroDivision
    else
      let dens := mass / (2 * phih * (Ro ^ 2 - Ri ^ 2) * H) in
      do q1 <- big_annulus lmax dens (H / 2) Ri Ro phic phih;
      do q2 <- big_annulus lmax dens (- H / 2) Ri Ro phic phih;
      Ok (arr_add q1 q2)).
(* :146-157 RectPrism; outer: only a message is printed, the moments stay zero (also in the classes below) *)
Definition RectPrism (lmax : Z) (inner : bool) (mass H a b phic : R) : res shape :=
  do m <- cad_rect_prism (posm mass) H a b phic;
  prim inner lmax mass m (if inner then rect_prism lmax mass H a b phic else Ok (zeros lmax)).
(* :160-171 TriPrism *)
Definition TriPrism (lmax : Z) (inner : bool) (mass H d y1 y2 : R) : res shape :=
  prim inner lmax mass (cad_tri_prism (posm mass) H d y1 y2) (if inner then tri_prism lmax mass H d y1 y2 else Ok (zeros lmax)).
(* :174-185 Cone *)
Definition Cone (lmax : Z) (inner : bool) (mass P Rad phic phih : R) : res shape :=
  do m <- cad_cone (posm mass) P 0 Rad phic phih;
  prim inner lmax mass m (if inner then cone lmax mass P Rad phic phih else Ok (zeros lmax)).
(* :188-201 Sphere; outer: the result of bigQlm.sphere (:201) is thrown away, its ValueError is not *)
Definition Sphere (lmax : Z) (inner : bool) (mass Rad : R) (center : vec) : res shape :=
  do s <- prim inner lmax mass (cad_sphere (posm mass) Rad) (if inner then Ok (sphere lmax mass Rad) else Ok (zeros lmax));
  if inner then match shape_translate s center true with (s', None) => Ok s' | (_, Some e) => Err e end
  else
    let '(cx, cy, cz) := center in
    if is0 (4 * PI * Rad ^ 3 / 3) then Err ZeroDivision
    else
    let dens := mass / (4 * PI * Rad ^ 3 / 3) in
    do _ <- big_sphere lmax dens Rad cx cy cz;
    Ok s.
(* :204-215 NGon *)
Definition NGon (lmax : Z) (inner : bool) (mass H a phic : R) (N : Z) : res shape :=
  do m <- cad_ngon_prism (posm mass) H a phic N;
  prim inner lmax mass m (if inner then ngon_prism lmax mass H a phic N else Ok (zeros lmax)).
(* :218-229 Tetrahedron *)
Definition Tetrahedron (lmax : Z) (inner : bool) (mass x y1 y2 z : R) : res shape :=
  prim inner lmax mass (cad_tetrahedron2 (posm mass) x y1 y2 z) (if inner then tetrahedron2 lmax mass x y1 y2 z else Ok (zeros lmax)).
(* :232-243 Pyramid *)
Definition Pyramid (lmax : Z) (inner : bool) (mass x y z : R) : res shape :=
  prim inner lmax mass (cad_pyramid (posm mass) x y z) (if inner then pyramid lmax mass x y z else Ok (zeros lmax)).
(* :246-258 OuterCone; bigQlmNum.outer_cone (numerical quadrature) is a parameter of the model; its result (:258) is
   thrown away *)
Definition OuterCone (outer_cone : Z -> R -> R -> R -> R -> R -> res marr) (lmax : Z) (inner : bool) (mass H IR OR phih : R) : res shape :=
  do m <- cad_outercone mass H IR OR phih;
  do s <- prim inner lmax mass m (Ok (zeros lmax));
  if inner then Ok s
  else if is0 (2 * phih * H * (OR ^ 2 - IR ^ 2) / 3) then Err ZeroDivision
  else
    let dens := mass / (2 * phih * H * (OR ^ 2 - IR ^ 2) / 3) in
    do _ <- outer_cone lmax dens H IR OR phih;
    Ok s.
(* qlm *= mass/np.real(qlm[0, lmax])*np.sqrt(4*np.pi)   (:272, :288) *)
Definition renorm (mass : R) (q : marr) : res marr :=
  let q0 := Re (at_ q 0 (deg q)) in
  if is0 q0 then Err NotFinite
  else Ok (mkarr (deg q) (fun i j => (at_ q i j * RtoC (mass / q0 * sqrt (4 * PI)))%C)).
(* :261-274 Cylhole and :277-290 Platehole; qlmNum.steinmetz and qlmNum.platehole (numerical quadrature, called with
   density 1) are parameters *)
Definition Cylhole (steinmetz : Z -> R -> R -> R -> res marr) (lmax : Z) (inner : bool) (mass r Rad : R) : res shape :=
  prim inner lmax mass (cad_cylhole (posm mass) r Rad)
    (if inner then do q <- steinmetz lmax 1 r Rad; renorm mass q else Ok (zeros lmax)).
Definition Platehole (platehole : Z -> R -> R -> R -> R -> res marr) (lmax : Z) (inner : bool) (mass t r theta : R) : res shape :=
  prim inner lmax mass (cad_platehole (posm mass) t r theta)
    (if inner then do q <- platehole lmax 1 t r theta; renorm mass q else Ok (zeros lmax)).
