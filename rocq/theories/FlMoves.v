(* Model of glib.translate_point_array and rotate_point_array (/repo/newt/glib.py:165-219) in rounded arithmetic, as in
   FlGlib.v: every operation is followed by a rounding, dot products in any order.  Overflow, underflow and nan are not
   modelled.  Halving theta is exact in binary arithmetic and is not rounded. *)
From Coq Require Import Reals List.
From Verif Require Export Glib FloatSpec FlGlib.
Import ListNotations.
Open Scope R_scope.

Section Float.
Context (A : arith) (fsin : R -> R).
Definition axes : list axis := AX :: AY :: AZ :: nil.
(* :184, :188 pointMass[..., 1:4]+transVec *)
Definition fl_shift (v t w : vec) : Prop := forall i, co i w = rnd A (co i v + co i t).
(* :202-203 norm = np.sqrt(np.dot(rotVec, rotVec)); unit = rotVec/norm, finite only if norm is not 0 *)
Definition fl_unit (rotVec unit : vec) : Prop :=
  exists d n, fdot A (map (fun i => (co i rotVec, co i rotVec)) axes) d /\ n = rnd A (sqrt d) /\ n <> 0 /\ forall i, co i unit = rnd A (co i rotVec / n).
(* :205-207 W; the minus signs are exact *)
Definition skew (u : vec) (i j : axis) : R :=
  let '(u0, u1, u2) := u in
  match i, j with
  | AX, AY => - u2 | AX, AZ => u1
  | AY, AX => u2 | AY, AZ => - u0
  | AZ, AX => - u1 | AZ, AY => u0
  | _, _ => 0
  end.
Definition delta (i j : axis) : R := match i, j with AX, AX | AY, AY | AZ, AZ => 1 | _, _ => 0 end.
(* :208 np.identity(3)+np.sin(theta)*W+2*(np.sin(theta/2.)**2)*W.dot(W), from left to right *)
Definition fl_matrix (theta : R) (rotVec : vec) (M : axis -> axis -> R) : Prop :=
  exists unit WW, fl_unit rotVec unit /\ (forall i j, fdot A (map (fun k => (skew unit i k, skew unit k j)) axes) (WW i j)) /\
  let s := fsin theta in let s2 := fsin (theta / 2) in let c := rnd A (2 * rnd A (s2 * s2)) in
  forall i j, M i j = rnd A (rnd A (delta i j + rnd A (s * skew unit i j)) + rnd A (c * WW i j)).
(* :213, :217 R.dot(...) *)
Definition fl_apply (M : axis -> axis -> R) (v w : vec) : Prop := forall i, fdot A (map (fun j => (M i j, co j v)) axes) (co i w).
(* the masses are copied (:183, :187, :212, :216) *)
Definition fl_row (g : vec -> vec -> Prop) (p q : pt) : Prop := pm q = pm p /\ g (pp p) (pp q).
Definition fl_array (g : vec -> vec -> Prop) (a b : parr) : Prop :=
  match a, b with Row p, Row q => fl_row g p q | Rows l, Rows m => Forall2 (fl_row g) l m | _, _ => False end.
(* :165-190 translate_point_array *)
Definition fl_translate_point_array (a : parr) (t : vec) (b : parr) : Prop := fl_array (fun v w => fl_shift v t w) a b.
(* :193-219 rotate_point_array: one matrix for all points *)
Definition fl_rotate_point_array (a : parr) (theta : R) (rotVec : vec) (b : parr) : Prop :=
  exists M, fl_matrix theta rotVec M /\ fl_array (fl_apply M) a b.
End Float.
(* programs that move an array again and again *)
Inductive move := MShift (t : vec) | MTurn (theta : R) (rotVec : vec).
(* the same program in exact arithmetic (Glib.v) *)
Definition exact_move (a : parr) (m : move) : res parr :=
  match m with MShift t => Ok (translate_point_array a t) | MTurn theta v => rotate_point_array a theta v end.
Fixpoint exact_moves (ms : list move) (a : parr) : res parr :=
  match ms with [] => Ok a | m :: ms => do b <- exact_move a m; exact_moves ms b end.
(* and in rounded arithmetic *)
Inductive fl_moves (A : arith) (fsin : R -> R) : list move -> parr -> parr -> Prop :=
| flm_nil : forall a, fl_moves A fsin nil a a
| flm_shift : forall t ms a b c, fl_translate_point_array A a t b -> fl_moves A fsin ms b c -> fl_moves A fsin (MShift t :: ms) a c
| flm_turn : forall theta v ms a b c, fl_rotate_point_array A fsin a theta v b -> fl_moves A fsin ms b c -> fl_moves A fsin (MTurn theta v :: ms) a c.
