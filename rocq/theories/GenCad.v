(* Model of /repo/newt/genCAD.py: the solids built with cadquery, as sets of points.
   Simplifications: cadquery itself is trusted to build the solid its documentation describes (box, sphere,
   cylinder, revolve, extrude, polygon, union, cut, intersect, translate, rotate); degenerate sizes, on which
   cadquery raises its own errors, are not modelled; file export (save_stl :593-610) is in Save.v. *)
From Verif Require Export Res Glib RotSpec.
Open Scope R_scope.

(* a cadquery Workplane with the attribute pmass *)
Record mesh := mkmesh { mset : vec -> Prop; pmass : bool }.
(* mesh.translate(t); Workplane.rotate((0,0,0), axis, degrees) *)
Definition set_translate (t : vec) (X : vec -> Prop) : vec -> Prop := fun v => X (vsub v t).
Definition set_rotz (a : R) (X : vec -> Prop) : vec -> Prop := fun v => X (zrot (- a) v).
Definition set_roty (b : R) (X : vec -> Prop) : vec -> Prop := fun v => X (yrot (- b) v).
(* genCAD.py:535-550 translate_mesh; reading pmass of None raises AttributeError *)
Definition translate_mesh (m : option mesh) (t : vec) : res mesh :=
  match m with None => Err AttributeError | Some m => Ok (mkmesh (set_translate t (mset m)) (pmass m)) end.
(* genCAD.py:553-577 rotate_mesh: alpha about z FIRST, then beta about y, then gamma about z *)
Definition rotate_mesh (m : option mesh) (alpha beta gamma : R) : res mesh :=
  match m with
  | None => Err AttributeError
  | Some m => Ok (mkmesh (set_rotz gamma (set_roty beta (set_rotz alpha (mset m)))) (pmass m))
  end.
(* genCAD.py:580-590 sum_mesh.  None anywhere raises AttributeError (None.pmass, None.union, None.pmass = True) *)
Definition sum_step (acc : res mesh) (m : option mesh) : res mesh :=
  do m <- (match m with None => Err AttributeError | Some m => Ok m end);
  do t <- acc;
  Ok (mkmesh (if pmass m then (fun v => mset t v \/ mset m v) else (fun v => mset t v /\ ~ mset m v)) (pmass t)).
Definition sum_mesh (ms : list (option mesh)) : res mesh :=
  match ms with
  | [] => Err IndexError
  | m0 :: rest =>
      do t <- fold_left sum_step rest (match m0 with None => Err AttributeError | Some m => Ok m end);
      Ok (mkmesh (mset t) true)
  end.


(* convex hull of finitely many points *)
Definition hull (vs : list vec) (p : vec) : Prop :=
  exists w : list R, length w = length vs /\ List.Forall (fun a => 0 <= a) w /\ fold_right Rplus 0 w = 1 /\
    p = vsum (map (fun '(a, v) => vscal a v) (combine w vs)).
(* |z| <= H/2 above and below a plane figure: extrude(H/2, both=True) *)
Definition extrude (H : R) (F : R -> R -> Prop) : vec -> Prop := fun '(x, y, z) => F x y /\ - H / 2 <= z <= H / 2.
Definition triangle (a b c : R * R) (x y : R) : Prop := hull [(fst a, snd a, 0); (fst b, snd b, 0); (fst c, snd c, 0)] (x, y, 0).
(* genCAD.py:8-25 sphere *)
Definition cad_sphere (pm_ : bool) (Rad : R) : mesh := mkmesh (fun '(x, y, z) => x ^ 2 + y ^ 2 + z ^ 2 <= Rad ^ 2) pm_.
(* :28-47 cylinder *)
Definition cyl_set (H Rad : R) : vec -> Prop := extrude H (fun x y => x ^ 2 + y ^ 2 <= Rad ^ 2).
(* :50-80 annulus: a rectangle Ri <= x <= Ro, |z| <= H/2 revolved by 2*phih, then turned by phic - phih *)
Definition cad_annulus (pm_ : bool) (H Ri Ro phic phih : R) : mesh :=
  mkmesh (set_rotz (phic - phih) (fun v => exists r p z, Ri <= r <= Ro /\ 0 <= p <= 2 * phih /\ - H / 2 <= z <= H / 2 /\
     v = (r * cos p, r * sin p, z))) pm_.
(* :83-118 cone: a polygon of the xz plane revolved; r1 == 0 takes the triangle (0,0), (r2,0), (0,H) *)
Definition quadrangle (a b c d : R * R) (x y : R) : Prop := hull [(fst a, snd a, 0); (fst b, snd b, 0); (fst c, snd c, 0); (fst d, snd d, 0)] (x, y, 0).
Definition cad_cone (pm_ : bool) (H r1 r2 phic phih : R) : res mesh :=
  let fig := if Req_EM_T r1 0 then triangle (0, 0) (r2, 0) (0, H) else quadrangle (0, 0) (r2, 0) (r1, H) (0, H) in
  rotate_mesh (Some (mkmesh (fun v => exists r p z, fig r z /\ 0 <= p <= 2 * phih /\
     v = (r * cos p, r * sin p, z)) pm_)) (phic - phih) 0 0.
(* :121-157 tri_iso_prism *)
Definition cad_tri_iso_prism (pm_ : bool) (H a d phic : R) : res mesh :=
  rotate_mesh (Some (mkmesh (extrude H (triangle (0, 0) (d, - a / 2) (d, a / 2))) pm_)) phic 0 0.
(* :160-191 tri_iso_prism2 *)
Definition cad_tri_iso_prism2 (pm_ : bool) (H Rad phic phih : R) : res mesh :=
  let Rx := Rad * cos phih in
  let Ry := Rad * sin phih in
  rotate_mesh (Some (mkmesh (extrude H (triangle (0, 0) (Rx, Ry) (Rx, - Ry))) pm_)) phic 0 0.
(* :194-222 tri_prism *)
Definition cad_tri_prism (pm_ : bool) (H d y1 y2 : R) : mesh := mkmesh (extrude H (triangle (0, 0) (d, y1) (d, y2))) pm_.
(* :225-250 rect_prism *)
Definition box_set (a b H : R) : vec -> Prop := fun '(x, y, z) => - a / 2 <= x <= a / 2 /\ - b / 2 <= y <= b / 2 /\ - H / 2 <= z <= H / 2.
Definition cad_rect_prism (pm_ : bool) (H a b phic : R) : res mesh := rotate_mesh (Some (mkmesh (box_set a b H) pm_)) phic 0 0.
(* :253-283 trapezoid: the loft from the rectangle w1 x t at z = 0 to the rectangle w2 x t at z = h *)
Definition cad_trapezoid (pm_ : bool) (t w1 w2 h : R) : mesh :=
  mkmesh (hull [(w1 / 2, t / 2, 0); (w1 / 2, - t / 2, 0); (- w1 / 2, - t / 2, 0); (- w1 / 2, t / 2, 0);
                (w2 / 2, t / 2, h); (w2 / 2, - t / 2, h); (- w2 / 2, - t / 2, h); (- w2 / 2, t / 2, h)]) pm_.
(* cadquery polygon(N, diameter): regular N-gon inscribed in the circle of that DIAMETER, first vertex on the x axis *)
Definition ngon_vertex (N : Z) (diameter : R) (k : nat) : vec :=
  (diameter / 2 * cos (2 * PI * INR k / IZR N), diameter / 2 * sin (2 * PI * INR k / IZR N), 0).
Definition polygon (N : Z) (diameter x y : R) : Prop := hull (map (ngon_vertex N diameter) (seq 0 (Z.to_nat N))) (x, y, 0).
(* :286-318 ngon_prism; phic is not used *)
Definition cad_ngon_prism (pm_ : bool) (H a phic : R) (N : Z) : res mesh :=
  let ang := 2 * PI / IZR N in
  let Rad := a / sqrt (2 * (1 - cos ang)) in
  rotate_mesh (Some (mkmesh (extrude H (polygon N Rad)) pm_)) (ang / 2) 0 0.
(* :321-359 tetrahedron *)
Definition cad_tetrahedron (pm_ : bool) (x y z : R) : mesh := mkmesh (hull [(0, 0, 0); (x, 0, 0); (0, y, 0); (0, 0, z)]) pm_.
(* :362-401 tetrahedron2 *)
Definition cad_tetrahedron2 (pm_ : bool) (x y1 y2 z : R) : mesh := mkmesh (hull [(0, 0, 0); (x, y1, 0); (x, y2, 0); (0, 0, z)]) pm_.
(* :404-442 pyramid: the vertices of line 425 *)
Definition cad_pyramid (pm_ : bool) (x y z : R) : mesh :=
  mkmesh (hull [(x / 2, y / 2, 0); (x / 2, - y / 2, 0); (- x / 2, - y / 2, 0); (- x / 2, y / 2, 0); (0, 0, z)]) pm_.
(* :445-465 cylhole: cylinder(0, r, 2*R) has height r and radius 2*R; rotate by 90 degrees about x *)
Definition cad_cylhole (pm_ : bool) (r Rad : R) : mesh :=
  mkmesh (fun v => cyl_set r (2 * Rad) v /\ (let '(x, y, z) := v in cyl_set Rad (2 * r) (x, z, - y))) pm_.
(* :468-500 platehole *)
Definition cad_platehole (pm_ : bool) (t r theta : R) : mesh :=
  mkmesh (fun v => box_set (2 * r + 2 * t * sin theta) (2 * r + 2 * t * sin theta) t v /\ set_roty theta (cyl_set (2 * t) r) v) pm_.
(* :503-532 outercone: the polygon (0,0), (OR,0), (IR,H), (IR,0) of line 528 (lineTo starts at the origin); the
   segment from the origin to (IR,0) is retraced, so the figure is the triangle (OR,0), (IR,H), (IR,0) *)
Definition cad_outercone (mass H IR OR phih : R) : res mesh :=
  if Rle_dec IR 0 then Err ValueError
  else Ok (mkmesh (fun v => exists r p z, triangle (OR, 0) (IR, H) (IR, 0) r z /\ 0 <= p <= 2 * phih /\
     v = (r * cos p, r * sin p, z)) (if Req_EM_T mass 0 then false else true)).
