(* The programs of MemSpec.v run on the memory of Memory.v. *)
From Coq Require Import String List ZArith Reals.
From Verif Require Export Memory MemSpec.
From Verif Require Import Cplx.
Open Scope C_scope.

(* the call of the function of that name *)
Definition runs (f : fn) (r : ref) : M ref :=
  match f with
  | FRotate a b c => m_rotate_qlm r a b c
  | FRotateDs ds ct => m_rotate_qlm_Ds r ds ct
  | FRotateDsRight ds ct => m_rotate_qlm_Ds_right r ds ct
  | FCoax efms s => m_apply_trans_mat r efms s
  | FCoaxRight efms s => m_apply_trans_mat_right r efms s
  | FRecQ v => m_rec_translate_qlm r v | FRecQb v => m_rec_translate_Qlmb r v | FRecq2Q v => m_rec_translate_q2Q r v
  | FShiftQ v => m_translate_qlm r v | FShiftQb v => m_translate_Qlmb r v | Fshiftq2Q v => m_translate_q2Q r v
  | FEmbed L => m_embed_qlm r L
  | FCopy => np_copy r
  end.
(* names bound to array objects *)
Definition names := name -> option ref.
Definition bindn (e : names) (x : name) (r : ref) : names := fun y => if Nat.eqb y x then Some r else e y.
Definition lookup (e : names) (x : name) : res ref := match e x with Some r => Ok r | None => Err UnboundLocal end.
(* what a statement does to memory, and the names afterwards; in place: the buffer behind the name is written *)
Definition exec (e : names) (s : stmt) : M names :=
  match s with
  | SNew x q => act r <- alloc q; ret (bindn e x r)
  | SCall x f y => act r <- lift (lookup e y); act r' <- runs f r; ret (bindn e x r')
  | STorque x y z a b c rv ty k => act r <- lift (lookup e y); act r2 <- lift (lookup e z); act n <- m_torque r r2 a b c rv ty k; ret (bindn e x (fst (fst n)))
  | SAssign x y => act r <- lift (lookup e y); ret (bindn e x r)
  | SPut x i j v => act r <- lift (lookup e x); act q <- load r; act _ <- store r (upd q i j v); ret e
  | SScale x c => act r <- lift (lookup e x); act q <- load r; act _ <- store r (cscal c q); ret e
  | SAdd x y => act r <- lift (lookup e x); act s <- lift (lookup e y); act q <- load r; act p <- load s; act n <- lift (iplus Cplus q p); act _ <- store r n; ret e
  | SSub x y => act r <- lift (lookup e x); act s <- lift (lookup e y); act q <- load r; act p <- load s; act n <- lift (iplus Cminus q p); act _ <- store r n; ret e
  end.
(* an exception leaves the names as they were, and the memory as it is *)
Definition step (h : heap) (e : names) (s : stmt) : heap * names * option exn :=
  match exec e s h with (h', Ok e') => (h', e', None) | (h', Err x) => (h', e, Some x) end.
Fixpoint run (h : heap) (e : names) (p : list stmt) : heap * names * list (option exn) :=
  match p with nil => (h, e, nil) | s :: p' => let '(h1, e1, x) := step h e s in let '(h2, e2, xs) := run h1 e1 p' in (h2, e2, x :: xs) end.
Definition empty : heap := mkh 0 (fun _ => zeros 0).
Definition no_names : names := fun _ => None.
