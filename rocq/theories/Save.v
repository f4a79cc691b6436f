(* Model of Shape.save_shape (newt/shapes.py:34-56) and genCAD.save_stl (newt/genCAD.py:593-610), and of programs that
   move, add and save named shapes.
   Simplifications: numpy.savetxt and str write numbers with at most 19 significant digits - here the file holds the
   numbers themselves; nan/inf entries (Err NotFinite) are written as the text nan/inf and are kept as Err; the STL file holds the point
   set of the exported solid (cadquery tessellates it to the tolerance .01); the disk is never full and every path is
   writable. *)
From Coq Require Import String.
From Verif Require Export Shapes.
From Verif Require Import Cplx.
Open Scope R_scope.

(* the moment file: header lines (shapes.py:49-55) and the rows of the array (:56) *)
Record moment_file := mkmf { f_title : string; f_kind : string; f_mass : R; f_com : res vec; f_data : res marr }.
Inductive content := Stl (X : vec -> Prop) | Text (m : moment_file).
Definition files := string -> option content.
Definition no_files : files := fun _ => None.
(* open(name, 'w'): an existing file is replaced *)
Definition write (fs : files) (name : string) (c : content) : files := fun n => if String.eqb n name then Some c else fs n.

(* genCAD.py:593-610 save_stl.  wp_iter: whether the installed cadquery gives Workplane an __iter__ (releases after 2.2
   do); it still has no __getitem__, so that sum_mesh's mesh[0] raises TypeError.  Exporting None raises AttributeError. *)
Definition save_stl (wp_iter : bool) (m : option mesh) (name : string) (fs : files) : files * option exn :=
  match m with
  | None => (fs, Some AttributeError)
  | Some m => if wp_iter then (fs, Some TypeError) else (write fs (append name ".stl") (Stl (mset m)), None)
  end.
(* shapes.py:34-56 save_shape *)
Definition save_shape (wp_iter : bool) (s : shape) (name : string) (fs : files) : files * option exn :=
  match save_stl wp_iter (s_mesh s) name fs with
  | (fs', Some e) => (fs', Some e)
  | (fs', None) =>
      let kind := if s_inner s then "Inner moments"%string else "Outer moments"%string in
      (write fs' (append name ".txt") (Text (mkmf "Moment file" kind (s_mass s) (s_com s) (s_qlm s))), None)
  end.
(* statements of a program: those of Shapes.v and save_shape; exceptions are caught by the caller *)
Inductive stmt := SOp (o : op) | SSave (i : nat) (name : string).
Definition fstep (wp_iter : bool) (x : store * files) (c : stmt) : store * files :=
  match c with
  | SOp o => (step (fst x) o, snd x)
  | SSave i name => (fst x, fst (save_shape wp_iter (fst x i) name (snd x)))
  end.
Definition frun (wp_iter : bool) (cs : list stmt) (x : store * files) : store * files := fold_left (fstep wp_iter) cs x.
