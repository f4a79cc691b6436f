(* Specification for newt/read_multiFor.py: decimal numbers and .mpc programs as abstract syntax, how they are written
   down as text, and what distribution of mass a program builds. *)
From Verif Require Export ShapeSpec AchSpec ReadMulti.
From Verif Require Import Cplx.
From Coq Require Import List.
Import ListNotations.
Open Scope C_scope.

(* ---- text ---- *)
Fixpoint all_chars (p : ascii -> bool) (s : string) : bool :=
  match s with EmptyString => true | String c s => (p c && all_chars p s)%bool end.
Definition blank (s : string) : Prop := all_chars isws s = true.       (* white space, possibly none *)

(* ---- decimal numbers: sign, digits before and after the point, exponent, surrounded by blanks ---- *)
Inductive sgn := Unsigned | Plus | Minus.
Record numeral := mknum { n_left : string; n_sign : sgn; n_int : list nat; n_frac : option (list nat);
                          n_exp : option (sgn * list nat); n_right : string }.
Definition frac_digits (n : numeral) : list nat := match n_frac n with Some f => f | None => [] end.
Definition proper_num (n : numeral) : Prop :=
  blank (n_left n) /\ blank (n_right n) /\ List.Forall (fun d => (d < 10)%nat) (n_int n ++ frac_digits n) /\ (n_int n ++ frac_digits n <> [])%list /\
  match n_exp n with Some (_, ds) => ds <> [] /\ List.Forall (fun d => (d < 10)%nat) ds | None => True end.
(* the integer the digits stand for *)
Fixpoint digits_value (ds : list nat) : Z :=
  match ds with [] => 0%Z | d :: r => (Z.of_nat d * 10 ^ Z.of_nat (length r) + digits_value r)%Z end.
Definition signed (s : sgn) (z : Z) : Z := match s with Minus => (- z)%Z | _ => z end.
Definition exponent (n : numeral) : Z := match n_exp n with Some (s, ds) => signed s (digits_value ds) | None => 0%Z end.
Definition value (n : numeral) : R :=
  (IZR (signed (n_sign n) (digits_value (n_int n ++ frac_digits n))) * powerRZ 10 (exponent n - Z.of_nat (length (frac_digits n))))%R.
(* how they are written *)
Fixpoint show_digits (ds : list nat) : string :=
  match ds with [] => ""%string | d :: r => String (ascii_of_nat (48 + d)) (show_digits r) end.
Definition show_sign (s : sgn) : string := match s with Unsigned => "" | Plus => "+" | Minus => "-" end.
Definition show_core (n : numeral) : string :=
  (show_sign (n_sign n) ++ show_digits (n_int n) ++ (match n_frac n with Some f => "." ++ show_digits f | None => "" end)
   ++ match n_exp n with Some (s, ds) => "e" ++ show_sign s ++ show_digits ds | None => "" end)%string.
Definition show (n : numeral) : string := (n_left n ++ show_core n ++ n_right n)%string.
(* several, separated by commas *)
Fixpoint show_list (l : list numeral) : string :=
  match l with [] => "" | [n] => show n | n :: l => show n ++ "," ++ show_list l end%string.

(* ---- moment files (.gsq, .gbq): nine lines, the degree first on the second, then one line per (l, m), m = 0..l ---- *)
Record row := mkrow { w_re : numeral; w_gap : string; w_im : numeral; w_rest : string }.
Definition proper_row (r : row) : Prop :=
  proper_num (w_re r) /\ proper_num (w_im r) /\ blank (w_gap r) /\ w_gap r <> ""%string /\
  match w_rest r with EmptyString => True | String c _ => isws c = true end.
Definition show_row (r : row) : string := (show (w_re r) ++ w_gap r ++ show (w_im r) ++ w_rest r)%string.
Definition row_value (r : row) : C := (value (w_re r), value (w_im r)).
(* the place of (l, m) in the list (0,0), (1,0), (1,1), (2,0), ... *)
Definition place (l m : Z) : nat := Z.to_nat (l * (l + 1) / 2 + m).

(* ---- .mpc programs ---- *)
Inductive solid_decl :=
| Cylinder (Ri Ro H phi0 phi1 : numeral)
| Ball (r : numeral)
| ConeDecl (LR UR H : numeral)
| Triangle (d y1 y2 t : numeral)
| Trapezoid (w1 w2 h t : numeral)
| Partcylinder (r d h : numeral)
| TetrahedronDecl (x y z : numeral)
| Plate_hole (r t theta : numeral)
| PyramidDecl (x y z : numeral)
| Rectangle (x y z : numeral).
(* blanks before the keyword, blanks after the text, an optional comment *)
Record deco := mkdeco { d_pre : string; d_post : string; d_comment : option string }.
Definition proper_deco (d : deco) : Prop := blank (d_pre d) /\ blank (d_post d).
Inductive stmt :=
| Create (d : deco) (gap : string) (s : solid_decl) (dens : numeral) (dens_rest : option string) (x y z : numeral)
| Rotate (d : deco) (a b c : numeral)
| Translate (d : deco) (x y z : numeral)
| Add (d : deco)
| Centimetres (d : deco)
| Inches (d : deco)
| Nsteps (d : deco) (n : numeral)
| LoadPart (d : deco) (name : string)
| ZeroTotal (d : deco)
| GetTotal (d : deco)
| PutTotal (d : deco)
| Remark (d : deco).
(* text *)
Definition decl_name (s : solid_decl) : string :=
  match s with
  | Cylinder _ _ _ _ _ => "cylinder" | Ball _ => "sphere" | ConeDecl _ _ _ => "cone" | Triangle _ _ _ _ => "triangle"
  | Trapezoid _ _ _ _ => "trapezoid" | Partcylinder _ _ _ => "partcylinder" | TetrahedronDecl _ _ _ => "tetrahedron"
  | Plate_hole _ _ _ => "platehole" | PyramidDecl _ _ _ => "pyramid" | Rectangle _ _ _ => "rectangle"
  end.
Definition decl_params (s : solid_decl) : list numeral :=
  match s with
  | Cylinder a b c d e => [a; b; c; d; e] | Ball a => [a]
  | ConeDecl a b c | Partcylinder a b c | TetrahedronDecl a b c | Plate_hole a b c | PyramidDecl a b c | Rectangle a b c => [a; b; c]
  | Triangle a b c d | Trapezoid a b c d => [a; b; c; d]
  end.
Definition decorate (d : deco) (core : string) : string :=
  (d_pre d ++ core ++ d_post d ++ match d_comment d with Some c => "%" ++ c | None => "" end)%string.
Definition show_stmt (s : stmt) : list string :=
  match s with
  | Create d gap s dens rest x y z =>
      [decorate d ("create" ++ gap ++ decl_name s); show_list (decl_params s);
       show dens ++ match rest with Some r => "," ++ r | None => "" end; show_list [x; y; z]]
  | Rotate d a b c => [decorate d ("rotate" ++ show_list [a; b; c])]
  | Translate d x y z => [decorate d ("translate" ++ show_list [x; y; z])]
  | Add d => [decorate d "add"]
  | Centimetres d => [decorate d "cmin"]
  | Inches d => [decorate d "inchin"]
  | Nsteps d n => [decorate d ("nsteps " ++ show n)]
  | LoadPart d name => [decorate d ("load " ++ name)]
  | ZeroTotal d => [decorate d "zeroqlm"]
  | GetTotal d => [decorate d "gettotal"]
  | PutTotal d => [decorate d "puttotal"]
  | Remark d => [decorate d ""]
  end%string.
Definition show_prog (p : list stmt) : list string := flat_map show_stmt p.

(* the solid, of density one, a declaration stands for; u: the length unit in metres; angles are in degrees *)
Definition radians (a : R) : R := (a * PI / 180)%R.
Definition solid_of (u : R) (s : solid_decl) : body :=
  let v n := (value n * u)%R in
  match s with
  | Cylinder Ri Ro H p0 p1 => annular_sector (v H) (v Ri) (v Ro) (radians ((value p0 + value p1) / 2)) (radians ((value p1 - value p0) / 2))
  | Ball r => solid_ball (v r)
  | ConeDecl LR UR H => frustum 0 (v H) (v LR) (v UR)
  | Triangle d y1 y2 t => triangular_prism (v t) (v d) (v y1) (v y2)
  | Trapezoid w1 w2 h t => trapezoidal_plate (v t) (v w1) (v w2) (v h)
  | Partcylinder r d h => cylinder_segment (v h) (v r) (v d)
  | TetrahedronDecl x y z => corner_tetrahedron (v x) (v y) (v z)
  | Plate_hole r t th => slanted_hole (v t) (v r) (radians (value th))
  | PyramidDecl x y z => rect_pyramid (v x / 2) (v y / 2) (v z)
  | Rectangle x y z => box (v z) (v x) (v y)
  end.
(* the sizes for which the solid exists and the reader handles it; deg: the degree up to which moments are wanted *)
Definition sizes_ok (dg : Z) (s : solid_decl) : Prop :=
  match s with
  | Cylinder Ri Ro H p0 p1 => (0 < value H /\ 0 <= value Ri < value Ro /\ value p0 < value p1 <= value p0 + 360)%R
  | Ball r => (0 < value r)%R
  | ConeDecl LR UR H => (0 < value LR /\ value UR = 0 /\ 0 < value H)%R
  | Triangle d y1 y2 t => (0 < value d /\ value y1 < value y2 /\ 0 < value t)%R
  | Trapezoid w1 w2 h t => (0 < value w1 /\ 0 < value w2 /\ value w1 <> value w2 /\ 0 < value h /\ 0 < value t)%R
  | Partcylinder r d h => (0 < value d < value r /\ 0 < value h)%R
  | TetrahedronDecl x y z | PyramidDecl x y z | Rectangle x y z => (0 < value x /\ 0 < value y /\ 0 < value z)%R
  | Plate_hole r t th => (0 < value r /\ 0 < value t /\ - 90 < value th < 90)%R /\ (dg <= 5)%Z
  end.

(* what a program has built so far: unit, total, working part, and whether there has been any part yet *)
Record built := mkbuilt { b_inch : bool; b_total : body; b_work : body; b_named : bool }.
Definition nothing : body := fun f I => I = 0.
Definition unit_of (b : bool) : R := if b then (254 / 10000)%R else (1 / 100)%R.
Section programs.
Variable parts : string -> body.       (* the parts that can be loaded, by name *)
Definition mean (b : built) (s : stmt) : built :=
  let u := unit_of (b_inch b) in
  match s with
  | Create _ _ s dens _ x y z => mkbuilt (b_inch b) (b_total b)
      (shifted (value x * u, value y * u, value z * u)%R (dense (value dens * 1000) (solid_of u s))) true
  | Rotate _ p q r => mkbuilt (b_inch b) (b_total b) (turned (radians (value p)) (radians (value q)) (radians (value r)) (b_work b)) (b_named b)
  | Translate _ x y z => mkbuilt (b_inch b) (b_total b) (shifted (value x * u, value y * u, value z * u)%R (b_work b)) (b_named b)
  | Add _ => mkbuilt (b_inch b) (together (b_total b) (b_work b)) (b_work b) (b_named b)
  | Centimetres _ => mkbuilt false (b_total b) (b_work b) (b_named b)
  | Inches _ => mkbuilt true (b_total b) (b_work b) (b_named b)
  | LoadPart _ name => mkbuilt (b_inch b) (b_total b) (parts name) true
  | ZeroTotal _ => mkbuilt (b_inch b) nothing (b_work b) (b_named b)
  | GetTotal _ => mkbuilt (b_inch b) (b_total b) (b_total b) true
  | PutTotal _ => mkbuilt (b_inch b) (b_work b) (b_work b) true
  | Nsteps _ _ | Remark _ => b
  end.
Definition start : built := mkbuilt false nothing nothing false.
Definition builds (p : list stmt) : body := b_total (fold_left mean p start).

(* a name that can follow load: not itself containing a keyword that is tested before load, no % and no second load *)
Definition loadable (name : string) : Prop :=
  strip name = name /\ (forall kw, In kw ["create"; "rotate"; "translate"; "add"; "cmin"; "inchin"; "nsteps"; "%"; "load"]%string -> contains kw name = false).
(* a statement is well formed, and does not use the working part before there is one *)
Definition proper (dg : Z) (readable : string -> Prop) (b : built) (s : stmt) : Prop :=
  match s with
  | Create d gap s dens _ x y z => proper_deco d /\ blank gap /\ List.Forall proper_num (decl_params s) /\ proper_num dens /\
      List.Forall proper_num [x; y; z] /\ sizes_ok dg s
  | Rotate d a b' c => proper_deco d /\ List.Forall proper_num [a; b'; c] /\ b_named b = true
  | Translate d x y z => proper_deco d /\ List.Forall proper_num [x; y; z] /\ b_named b = true
  | Add d => proper_deco d /\ b_named b = true
  | LoadPart d name => proper_deco d /\ loadable name /\ readable name
  | Nsteps d n => proper_deco d /\ proper_num n
  | Centimetres d | Inches d | ZeroTotal d | GetTotal d | PutTotal d | Remark d => proper_deco d
  end.
Fixpoint proper_prog (dg : Z) (readable : string -> Prop) (b : built) (p : list stmt) : Prop :=
  match p with [] => True | s :: p => proper dg readable b s /\ proper_prog dg readable (mean b s) p end.
End programs.
(* The reader looks one line past a part created at the origin: that line must exist, and if the letters "add" occur in
   it - comment included - it must be an add statement.  rest: the lines after the program. *)
Fixpoint lookahead_ok (p : list stmt) (rest : list string) : Prop :=
  match p with
  | [] => True
  | Create _ _ _ _ _ x y z :: p' =>
      (value x = 0%R -> value y = 0%R -> value z = 0%R ->
         exists l, nth_error (show_prog p' ++ rest) 0 = Some l /\ (contains "add" l = true -> exists d p'', p' = Add d :: p'')) /\
      lookahead_ok p' rest
  | _ :: p' => lookahead_ok p' rest
  end.
(* the lines after the program: none, or an end statement and anything *)
Definition ending (rest : list string) : Prop :=
  rest = [] \/ exists d more, proper_deco d /\ rest = decorate d "end" :: more.
