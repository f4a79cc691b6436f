(* Storage-level model of /repo/newt/shapes.py: which attributes are rebound to new objects and which are
   changed in place.  Values are computed by the functions of Shapes.v / GenCad.v.
   Cells: ndarrays held in .qlm and .com, CAD objects held in .mesh. *)
From Verif Require Export Shapes.
From Verif Require Import Cplx.
Open Scope R_scope.

(* an instance of Shape: references to its arrays and its mesh *)
Record obj := mkobj { o_inner : bool; o_lmax : Z; o_qlm : Z; o_com : Z; o_mass : R; o_mesh : option Z }.
(* memory; addresses below h_next may be in use (integers, so that the infinitely many names of a program can all have
   storage of their own from the start) *)
Record hstate := mkhs { h_next : Z; h_qlm : Z -> res marr; h_com : Z -> res vec; h_mesh : Z -> mesh; h_obj : nat -> obj }.
Definition upd {A : Type} (f : nat -> A) (k : nat) (v : A) : nat -> A := fun j => if Nat.eqb j k then v else f j.
Definition updz {A : Type} (f : Z -> A) (k : Z) (v : A) : Z -> A := fun j => if Z.eqb j k then v else f j.
(* what a reader of shape i sees *)
Definition view (st : hstate) (i : nat) : shape :=
  let o := h_obj st i in
  mkshape (o_inner o) (o_lmax o) (h_qlm st (o_qlm o)) (h_com st (o_com o)) (o_mass o) (option_map (h_mesh st) (o_mesh o)).

(* self.qlm = <new array> *)
Definition bind_qlm (st : hstate) (i : nat) (q : res marr) : hstate :=
  let o := h_obj st i in
  mkhs (h_next st + 1)%Z (updz (h_qlm st) (h_next st) q) (h_com st) (h_mesh st)
    (upd (h_obj st) i (mkobj (o_inner o) (o_lmax o) (h_next st) (o_com o) (o_mass o) (o_mesh o))).
(* self.com = <new array> *)
Definition bind_com (st : hstate) (i : nat) (c : res vec) : hstate :=
  let o := h_obj st i in
  mkhs (h_next st + 1)%Z (h_qlm st) (updz (h_com st) (h_next st) c) (h_mesh st)
    (upd (h_obj st) i (mkobj (o_inner o) (o_lmax o) (o_qlm o) (h_next st) (o_mass o) (o_mesh o))).
(* self.mesh = <new CAD object> *)
Definition bind_mesh (st : hstate) (i : nat) (m : mesh) : hstate :=
  let o := h_obj st i in
  mkhs (h_next st + 1)%Z (h_qlm st) (h_com st) (updz (h_mesh st) (h_next st) m)
    (upd (h_obj st) i (mkobj (o_inner o) (o_lmax o) (o_qlm o) (o_com o) (o_mass o) (Some (h_next st)))).
(* self.com += tvec : numpy adds in place, every holder of the array sees it *)
Definition write_com (st : hstate) (i : nat) (c : res vec) : hstate :=
  mkhs (h_next st) (h_qlm st) (updz (h_com st) (o_com (h_obj st i)) c) (h_mesh st) (h_obj st).
(* self.inner = b;  self.mass = ...; self.lmax = ... *)
Definition put_inner (st : hstate) (i : nat) (b : bool) : hstate :=
  let o := h_obj st i in mkhs (h_next st) (h_qlm st) (h_com st) (h_mesh st) (upd (h_obj st) i (mkobj b (o_lmax o) (o_qlm o) (o_com o) (o_mass o) (o_mesh o))).
Definition put_size (st : hstate) (i : nat) (mass : R) (lmax : Z) : hstate :=
  let o := h_obj st i in mkhs (h_next st) (h_qlm st) (h_com st) (h_mesh st) (upd (h_obj st) i (mkobj (o_inner o) lmax (o_qlm o) (o_com o) mass (o_mesh o))).

(* shapes.py:58-67 rotate: three new objects *)
Definition h_rotate (st : hstate) (i : nat) (alpha beta gamma : R) : hstate * option exn :=
  let st1 := bind_qlm st i (do q <- s_qlm (view st i); rotate_qlm q alpha beta gamma) in
  match rotate_mesh (s_mesh (view st1 i)) alpha beta gamma with
  | Err e => (st1, Some e)
  | Ok m =>
      let st2 := bind_mesh st1 i m in
      let r0 := (do c <- s_com (view st2 i); Ok (Row (mkpt (s_mass (view st2 i)) c))) in
      let r1 := rot_row r0 gamma (0, 0, 1) in
      let r2 := rot_row r1 beta (0, 1, 0) in
      let r3 := rot_row r2 alpha (0, 0, 1) in
      (bind_com st2 i (row_pos r3), None)
  end.
(* shapes.py:69-80 translate: com in place, mesh and qlm new *)
Definition h_translate (st : hstate) (i : nat) (t : vec) (to_inner : bool) : hstate * option exn :=
  let st1 := write_com st i (do c <- s_com (view st i); Ok (vadd c t)) in
  match translate_mesh (s_mesh (view st1 i)) t with
  | Err e => (st1, Some e)
  | Ok m =>
      let st2 := bind_mesh st1 i m in
      let inner := s_inner (view st2 i) in
      if (inner && to_inner)%bool then (bind_qlm st2 i (do q <- s_qlm (view st2 i); Ok (translate_qlm q t)), None)
      else if (inner && negb to_inner)%bool then
        let st3 := put_inner st2 i false in (bind_qlm st3 i (do q <- s_qlm (view st3 i); translate_q2Q q t), None)
      else if (negb inner && negb to_inner)%bool then (bind_qlm st2 i (do q <- s_qlm (view st2 i); Ok (translate_Qlmb q t)), None)
      else (st2, Some ValueError)
  end.
(* genCAD.py:580-590 sum_mesh on references.  With several meshes the unions and cuts make a new object; with one,
   tmpmesh IS mesh[0] and :589 sets its pmass in place. *)
Definition h_sum_mesh (st : hstate) (ms : list (option Z)) : res (hstate * Z) :=
  do m <- sum_mesh (map (option_map (h_mesh st)) ms);
  match ms with
  | Some k :: nil => Ok (mkhs (h_next st) (h_qlm st) (h_com st) (updz (h_mesh st) k m) (h_obj st), k)
  | _ => Ok (mkhs (h_next st + 1)%Z (h_qlm st) (h_com st) (updz (h_mesh st) (h_next st) m) (h_obj st), h_next st)
  end.
(* self.mesh = <existing CAD object> *)
Definition set_ref (st : hstate) (i : nat) (k : Z) : hstate :=
  let o := h_obj st i in mkhs (h_next st) (h_qlm st) (h_com st) (h_mesh st) (upd (h_obj st) i (mkobj (o_inner o) (o_lmax o) (o_qlm o) (o_com o) (o_mass o) (Some k))).
Fixpoint all_names (l : list (option nat)) : option (list nat) :=
  match l with [] => Some [] | None :: _ => None | Some j :: l => option_map (cons j) (all_names l) end.
(* shapes.py:82-126 add: 0 + shape.qlm and 0 + mass*com make new arrays, com/mtot another *)
Definition h_add (st : hstate) (i : nat) (a : argname) : hstate * option exn :=
  match (match a with
         | NList l => match all_names l with Some l => Ok (i :: l) | None => Err AttributeError end
         | NShape j => Ok (i :: j :: nil)
         | NOther => Err TypeError end) with
  | Err e => (st, Some e)
  | Ok names =>
      let shape_list := map (view st) names in
      let lmax := maxl shape_list in
      if (forallb s_inner shape_list || forallb (fun x => negb (s_inner x)) shape_list)%bool then
        let com := fold_left com_step shape_list (Ok v0) in
        let mtot := fold_left (fun m x => m + s_mass x) shape_list 0 in
        match fold_left (qlm_step lmax) shape_list (Ok None) with
        | Err ValueError => (st, Some ValueError)
        | q =>
            let q' := (do t <- q; match t with Some t => Ok t | None => Ok (zeros lmax) end) in
            let st1 := put_size (bind_qlm (bind_com st i (com_div com mtot)) i q') i mtot lmax in
            match h_sum_mesh st1 (map (fun j => o_mesh (h_obj st1 j)) names) with
            | Err e => (st1, Some e)
            | Ok (st2, m) => (set_ref st2 i m, None)
            end
        end
      else (st, Some TypeError)
  end.

(* what a client program may do: the methods, genCAD.sum_mesh([s.mesh for s in ...]) for drawing,
   and shapes[j] = copy.copy(shapes[i]) *)
Inductive hop := HOp (o : op) | HSumMesh (l : list nat) | HCopy (i j : nat).
Definition h_call (st : hstate) (o : op) : hstate * option exn :=
  match o with
  | ORotate i a b g => h_rotate st i a b g
  | OTranslate i t b => h_translate st i t b
  | OAdd i a => h_add st i a
  end.
Definition h_step (st : hstate) (o : hop) : hstate :=
  match o with
  | HOp o => fst (h_call st o)
  | HSumMesh l => match h_sum_mesh st (map (fun j => o_mesh (h_obj st j)) l) with Ok (st', _) => st' | Err _ => st end
  | HCopy i j => mkhs (h_next st) (h_qlm st) (h_com st) (h_mesh st) (upd (h_obj st) j (h_obj st i))
  end.
Definition h_run (ops : list hop) (st : hstate) : hstate := fold_left h_step ops st.
