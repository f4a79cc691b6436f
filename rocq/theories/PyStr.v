(* Model of the Python string operations /repo/newt/read_multiFor.py uses: in, split, strip, endswith, replace,
   int() and float().  Strings are ASCII; a line keeps its newline as readlines() does. *)
From Coq Require Export Ascii String.
From Coq Require Import ZArith Reals List Bool.
From Verif Require Import Res Qlm.
Import ListNotations.

(* str.isspace for ASCII: \t \n \v \f \r, the four separators 28-31, space *)
Definition isws (c : ascii) : bool := let n := nat_of_ascii c in (((9 <=? n) && (n <=? 13)) || ((28 <=? n) && (n <=? 32)))%nat.
(* kw in s *)
Fixpoint contains (kw s : string) : bool :=
  (prefix kw s || match s with EmptyString => false | String _ s' => contains kw s' end)%bool.
Fixpoint drop (n : nat) (s : string) : string :=
  match n, s with O, _ => s | S n, String _ s' => drop n s' | S _, EmptyString => EmptyString end.
(* s.split(kw)[0] *)
Fixpoint before (kw s : string) : string :=
  if prefix kw s then EmptyString else match s with EmptyString => EmptyString | String c s' => String c (before kw s') end.
(* what follows the first kw *)
Fixpoint after (kw s : string) : option string :=
  if prefix kw s then Some (drop (String.length kw) s) else match s with EmptyString => None | String _ s' => after kw s' end.
(* s.split(kw)[1] *)
Definition split1 (kw s : string) : res string := match after kw s with Some r => Ok (before kw r) | None => Err IndexError end.
(* s.split at every character of a class, empty pieces kept *)
Fixpoint split_p (p : ascii -> bool) (s : string) : list string :=
  match s with
  | EmptyString => [EmptyString]
  | String c s' => if p c then EmptyString :: split_p p s' else
      match split_p p s' with w :: ws => String c w :: ws | [] => [] end
  end.
(* s.split(',') *)
Definition fields (s : string) : list string := split_p (Ascii.eqb ",") s.
(* s.split() *)
Definition words (s : string) : list string := filter (fun w => negb (String.eqb w "")) (split_p isws s).
(* s.strip() *)
Fixpoint lstrip (s : string) : string := match s with EmptyString => EmptyString | String c s' => if isws c then lstrip s' else s end.
Fixpoint rstrip (s : string) : string :=
  match s with EmptyString => EmptyString | String c s' => let r := rstrip s' in if (isws c && String.eqb r "")%bool then EmptyString else String c r end.
Definition strip (s : string) : string := rstrip (lstrip s).
(* s.endswith(suf) *)
Definition endswith (suf s : string) : bool := String.eqb (drop (String.length s - String.length suf) s) suf.
(* s.replace(old, new) *)
Fixpoint replace_go (old new s : string) (skip : nat) : string :=
  match s with
  | EmptyString => EmptyString
  | String c s' => match skip with
      | S n => replace_go old new s' n
      | O => if prefix old s then (new ++ replace_go old new s' (String.length old - 1))%string else String c (replace_go old new s' 0)
      end
  end.
Definition replace (old new s : string) : string := replace_go old new s 0.

(* ---- numbers ---- *)
Definition digit (c : ascii) : option Z :=
  let n := nat_of_ascii c in if ((48 <=? n) && (n <=? 57))%nat then Some (Z.of_nat n - 48)%Z else None.
(* the leading digits of s: value appended to acc, how many, the rest *)
Fixpoint digits (acc : Z) (n : nat) (s : string) : Z * nat * string :=
  match s with
  | EmptyString => (acc, n, s)
  | String c s' => match digit c with Some d => digits (10 * acc + d)%Z (S n) s' | None => (acc, n, s) end
  end.
Definition sign (s : string) : Z * string :=
  match s with String "+"%char s' => (1%Z, s') | String "-"%char s' => ((-1)%Z, s') | _ => (1%Z, s) end.
Definition lower (c : ascii) : ascii := let n := nat_of_ascii c in if ((65 <=? n) && (n <=? 90))%nat then ascii_of_nat (n + 32) else c.
Fixpoint lowers (s : string) : string := match s with EmptyString => EmptyString | String c s' => String (lower c) (lowers s') end.
(* int(s); digit separators _ are not modelled *)
Definition pyint (s : string) : res Z :=
  let '(sg, s1) := sign (strip s) in
  let '(v, n, r) := digits 0 0 s1 in
  if (Nat.eqb n 0 || negb (String.eqb r ""))%bool then Err ValueError else Ok (sg * v)%Z.
(* what follows a leading point *)
Definition point (r : string) : option string := match r with String "."%char r' => Some r' | _ => None end.
(* the exponent part *)
Definition expo (r : string) : res Z :=
  match r with
  | EmptyString => Ok 0%Z
  | String c r' => if (Ascii.eqb c "e" || Ascii.eqb c "E")%bool
      then let '(sg, r1) := sign r' in let '(e, n, r2) := digits 0 0 r1 in
           if (Nat.eqb n 0 || negb (String.eqb r2 ""))%bool then Err ValueError else Ok (sg * e)%Z
      else Err ValueError
  end.
(* float(s): the decimal value, exactly; inf and nan are NotFinite; separators _ are not modelled *)
Definition pyfloat (s : string) : res R :=
  let '(sg, s1) := sign (strip s) in
  let '(v, n, r) := digits 0 0 s1 in
  let '(v, k, r) := match point r with Some r' => digits v 0 r' | None => (v, O, r) end in
  if Nat.eqb (n + k) 0 then
    if existsb (String.eqb (lowers s1)) ["inf"; "infinity"; "nan"]%string then Err NotFinite else Err ValueError
  else do e <- expo r; Ok (IZR (sg * v) * pw 10 (e - Z.of_nat k))%R.
Fixpoint mapM {A B} (f : A -> res B) (l : list A) : res (list B) :=
  match l with [] => Ok [] | x :: l => do y <- f x; do r <- mapM f l; Ok (y :: r) end.
(* lines[i] *)
Definition item {A} (l : list A) (i : nat) : res A := match nth_error l i with Some x => Ok x | None => Err IndexError end.
(* [float(v) for v in s.split(',')], and np.array(s.split(','), dtype=float) *)
Definition floats (s : string) : res (list R) := mapM pyfloat (fields s).
