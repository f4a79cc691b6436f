(* Specification of C81: programs over named moment arrays, and what they mean when arrays are values that some names
   share.  No memory is mentioned here: a name has a value and a label, and names with the same label are one array. *)
From Coq Require Import String List ZArith Reals.
From Verif Require Import MultipoleLib.
From Verif Require Import Cplx.
Open Scope C_scope.

(* calls of the toolkit with one moment array *)
Inductive fn :=
| FRotate (alpha beta gamma : R)                  (* rotations.rotate_qlm *)
| FRotateDs (ds : mats) (conj_trans : bool)       (* rotations.rotate_qlm_Ds *)
| FRotateDsRight (ds : mats) (conj_trans : bool)  (* rotations.rotate_qlm_Ds_right *)
| FCoax (efms : mats) (q2Q : bool)                (* translationRecurs.apply_trans_mat *)
| FCoaxRight (efms : mats) (q2Q : bool)           (* translationRecurs.apply_trans_mat_right *)
| FRecQ (v : vec) | FRecQb (v : vec) | FRecq2Q (v : vec)         (* translationRecurs.translate_qlm, _Qlmb, _q2Q *)
| FShiftQ (v : vec) | FShiftQb (v : vec) | Fshiftq2Q (v : vec)   (* translations.translate_qlm, _Qlmb, _q2Q *)
| FEmbed (L : Z)                                  (* multipoleLib.embed_qlm *)
| FCopy.                                          (* numpy.copy *)
(* the value each returns *)
Definition value (f : fn) (q : marr) : res marr :=
  match f with
  | FRotate a b c => rotate_qlm q a b c
  | FRotateDs ds ct => Ok (rotate_qlm_Ds q ds ct)
  | FRotateDsRight ds ct => Ok (rotate_qlm_Ds_right q ds ct)
  | FCoax efms s => apply_trans_mat q efms s
  | FCoaxRight efms s => apply_trans_mat_right q efms s
  | FRecQ v => rec_translate_qlm q v | FRecQb v => rec_translate_Qlmb q v | FRecq2Q v => rec_translate_q2Q q v
  | FShiftQ v => Ok (translate_qlm q v) | FShiftQb v => Ok (translate_Qlmb q v) | Fshiftq2Q v => translate_q2Q q v
  | FEmbed L => match embed_qlm q L with EArr q' => Ok q' | EZero => Err TypeError end   (* the number 0 is no array *)
  | FCopy => Ok q
  end.
(* the calls that give back the very array they were given: translations.translate_qlm and translate_Qlmb by zero *)
Definition gives_back (f : fn) : bool :=
  match f with FShiftQ v | FShiftQb v => is0 (vnorm v) | _ => false end.

(* statements of a user's program; arrays are known by name *)
Definition name := nat.
Inductive stmt :=
| SNew (x : name) (q : marr)                   (* x = an array made elsewhere *)
| SCall (x : name) (f : fn) (y : name)         (* x = f(y) *)
| STorque (x y z : name) (alpha beta gamma : R) (rvec : vec) (trans_type : string) (cnst : R)   (* x = torque(y, z, ...)[0] *)
| SAssign (x y : name)                         (* x = y *)
| SPut (x : name) (i j : Z) (v : C)            (* x[i, j] = v, for indices within the array *)
| SScale (x : name) (c : C)                    (* x *= c *)
| SAdd (x y : name)                            (* x += y *)
| SSub (x y : name).                           (* x -= y *)
(* a += b and a -= b: shapes must agree, or b be 1x1 *)
Definition iplus (op : C -> C -> C) (a b : marr) : res marr :=
  if (deg a =? deg b)%Z then Ok (mkarr (deg a) (fun i j => op (at_ a i j) (at_ b i j)))
  else if (deg b =? 0)%Z then Ok (mkarr (deg a) (fun i j => op (at_ a i j) (at_ b 0 0)))
  else Err ValueError.

(* ---- values with labels ---- *)
Record world := mkw { val : name -> option marr; label : name -> nat; next_label : nat }.
(* x becomes an array of its own *)
Definition fresh (w : world) (x : name) (q : marr) : world :=
  mkw (fun y => if Nat.eqb y x then Some q else val w y) (fun y => if Nat.eqb y x then next_label w else label w y) (S (next_label w)).
(* x becomes another name of y's array *)
Definition share (w : world) (x y : name) : world :=
  mkw (fun n => if Nat.eqb n x then val w y else val w n) (fun n => if Nat.eqb n x then label w y else label w n) (next_label w).
(* the array x is changed in place: all of its names see it *)
Definition change (w : world) (x : name) (q : marr) : world :=
  mkw (fun n => if Nat.eqb (label w n) (label w x) then match val w n with Some _ => Some q | None => None end else val w n) (label w) (next_label w).
Definition get (w : world) (x : name) : res marr := match val w x with Some q => Ok q | None => Err UnboundLocal end.
Definition done (w : world) (x : res world) : world * option exn := match x with Ok w' => (w', None) | Err e => (w, Some e) end.
Definition means (w : world) (s : stmt) : world * option exn :=
  done w match s with
  | SNew x q => Ok (fresh w x q)
  | SCall x f y => do q <- get w y; do q' <- value f q; Ok (if gives_back f then share w x y else fresh w x q')
  | STorque x y z a b c rv ty k => do q <- get w y; do Q <- get w z; do n <- torque q Q a b c rv ty k; Ok (fresh w x (fst (fst n)))
  | SAssign x y => do _ <- get w y; Ok (share w x y)
  | SPut x i j v => do q <- get w x; Ok (change w x (upd q i j v))
  | SScale x c => do q <- get w x; Ok (change w x (cscal c q))
  | SAdd x y => do q <- get w x; do r <- get w y; do q' <- iplus Cplus q r; Ok (change w x q')
  | SSub x y => do q <- get w x; do r <- get w y; do q' <- iplus Cminus q r; Ok (change w x q')
  end.
(* a program catches the exceptions: the list of what its statements raised *)
Fixpoint means_all (w : world) (p : list stmt) : world * list (option exn) :=
  match p with nil => (w, nil) | s :: p' => let (w1, e) := means w s in let (w2, es) := means_all w1 p' in (w2, e :: es) end.
Definition nothing : world := mkw (fun _ => None) (fun _ => 0%nat) 0.

(* ---- plain values: no name ever sees what is done to another ---- *)
Definition plain := name -> option marr.
Definition set (p : plain) (x : name) (q : marr) : plain := fun y => if Nat.eqb y x then Some q else p y.
Definition pget (p : plain) (x : name) : res marr := match p x with Some q => Ok q | None => Err UnboundLocal end.
Definition plainly (p : plain) (s : stmt) : plain * option exn :=
  match (match s with
  | SNew x q => Ok (set p x q)
  | SCall x f y => do q <- pget p y; do q' <- value f q; Ok (set p x q')
  | STorque x y z a b c rv ty k => do q <- pget p y; do Q <- pget p z; do n <- torque q Q a b c rv ty k; Ok (set p x (fst (fst n)))
  | SAssign x y => do q <- pget p y; Ok (set p x q)
  | SPut x i j v => do q <- pget p x; Ok (set p x (upd q i j v))
  | SScale x c => do q <- pget p x; Ok (set p x (cscal c q))
  | SAdd x y => do q <- pget p x; do r <- pget p y; do q' <- iplus Cplus q r; Ok (set p x q')
  | SSub x y => do q <- pget p x; do r <- pget p y; do q' <- iplus Cminus q r; Ok (set p x q')
  end) with Ok p' => (p', None) | Err e => (p, Some e) end.
Fixpoint plainly_all (p : plain) (l : list stmt) : plain * list (option exn) :=
  match l with nil => (p, nil) | s :: l' => let (p1, e) := plainly p s in let (p2, es) := plainly_all p1 l' in (p2, e :: es) end.
(* statements that give no array a second name *)
Definition one_name (s : stmt) : Prop :=
  match s with SAssign x y => x = y | SCall x f y => gives_back f = true -> x = y | _ => True end.
