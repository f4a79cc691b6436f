(* Specification of C62: expressions that compute moments with the library, the mass distribution each is meant to
   describe, and a ball about the origin that contains it. *)
From Coq Require Import Reals List ZArith.
From Coquelicot Require Import Coquelicot.
From Verif Require Import Pg2Multi Qlm Translations TranslationRecurs Rotations Rotor.
From Verif Require Export BuiltSpec.
From Verif Require Import Cplx.
Open Scope R_scope.

(* e L is the array computed at the degree L *)
Definition lib_expr := Z -> res marr.
Inductive means : lib_expr -> body -> R -> Prop :=
(* point masses: pg2Multi.qmoments; a point at the origin has to come last there *)
| e_points : forall P r, 0 <= r -> (forall p, In p P -> vnorm (pp p) <= r) -> ~ origin_before_other P -> means (fun L => qmoments L P) (point_masses P) r
(* the solids of qlm.py, with a mass of either sign *)
| e_cylinder : forall m H Rad r, 0 < H -> 0 < Rad -> 0 <= r -> Rad ^ 2 + (H / 2) ^ 2 <= r ^ 2 -> means (fun L => cylinder L m H Rad) (of_mass m (solid_cylinder H Rad)) r
| e_annulus : forall m H Ri Ro phic phih r, 0 < H -> 0 <= Ri < Ro -> 0 < phih <= PI -> 0 <= r -> Ro ^ 2 + (H / 2) ^ 2 <= r ^ 2 ->
    means (fun L => annulus L m H Ri Ro phic phih) (of_mass m (annular_sector H Ri Ro phic phih)) r
| e_cone : forall m P Rad phic phih r, 0 < P <= r -> 0 < Rad <= r -> 0 < phih <= PI -> means (fun L => cone L m P Rad phic phih) (of_mass m (cone_sector P Rad phic phih)) r
| e_sphere : forall m Rad r, 0 < Rad <= r -> means (fun L => Ok (sphere L m Rad)) (of_mass m (solid_ball Rad)) r
| e_tri_prism : forall m H d y1 y2 r, 0 < H -> 0 < d -> y1 <> y2 -> 0 <= r -> d ^ 2 + y1 ^ 2 + (H / 2) ^ 2 <= r ^ 2 -> d ^ 2 + y2 ^ 2 + (H / 2) ^ 2 <= r ^ 2 ->
    means (fun L => tri_prism L m H d y1 y2) (of_mass m (triangular_prism H d y1 y2)) r
| e_tri_iso_prism : forall m H a d phic r, 0 < H -> 0 < a -> 0 < d -> 0 <= r -> d ^ 2 + (a / 2) ^ 2 + (H / 2) ^ 2 <= r ^ 2 ->
    means (fun L => tri_iso_prism L m H a d phic) (of_mass m (turned_z phic (triangular_prism H d (- a / 2) (a / 2)))) r
| e_tri_iso_prism2 : forall m H Rad phic phih r, 0 < H -> 0 < Rad -> 0 < phih < PI / 2 -> 0 <= r -> Rad ^ 2 + (H / 2) ^ 2 <= r ^ 2 ->
    means (fun L => tri_iso_prism2 L m H Rad phic phih) (of_mass m (turned_z phic (triangular_prism H (Rad * cos phih) (- (Rad * sin phih)) (Rad * sin phih)))) r
| e_rect_prism : forall m H a b phic r, 0 < H -> 0 < a -> 0 < b -> 0 <= r -> (a / 2) ^ 2 + (b / 2) ^ 2 + (H / 2) ^ 2 <= r ^ 2 ->
    means (fun L => rect_prism L m H a b phic) (of_mass m (turned_z phic (box H a b))) r
| e_ngon_prism : forall m H a phic N r, 0 < H -> 0 < a -> (3 <= N)%nat -> 0 <= r -> (a / (2 * tan (PI / INR N))) ^ 2 + (a / 2) ^ 2 + (H / 2) ^ 2 <= r ^ 2 ->
    means (fun L => ngon_prism L m H a phic (Z.of_nat N)) (of_mass m (regular_prism H a phic N)) r
| e_tetrahedron : forall m x y z r, 0 < x <= r -> 0 < y <= r -> 0 < z <= r -> means (fun L => tetrahedron L m x y z) (of_mass m (corner_tetrahedron x y z)) r
| e_tetrahedron2 : forall m x y1 y2 z r, 0 < x -> y1 <> y2 -> 0 < z <= r -> x ^ 2 + y1 ^ 2 <= r ^ 2 -> x ^ 2 + y2 ^ 2 <= r ^ 2 ->
    means (fun L => tetrahedron2 L m x y1 y2 z) (of_mass m (apex_tetrahedron x y1 y2 z)) r
| e_pyramid : forall m x y z r, 0 < x -> 0 < y -> 0 < z <= r -> x ^ 2 + y ^ 2 <= r ^ 2 -> means (fun L => pyramid L m x y z) (of_mass m (rect_pyramid x y z)) r
(* rotations.rotate_qlm, translations.translate_qlm, translationRecurs.translate_qlm, the sum of two arrays *)
| e_rotate : forall e B r a b g, means e B r -> means (fun L => do q <- e L; rotate_qlm q a b g) (turned a b g B) r
| e_translate : forall e B r t, means e B r -> means (fun L => do q <- e L; Ok (translate_qlm q t)) (shifted t B) (r + vnorm t)
| e_translate_recursively : forall e B r t, means e B r -> means (fun L => do q <- e L; rec_translate_qlm q t) (shifted t B) (r + vnorm t)
| e_add : forall e e' B B' r, means e B r -> means e' B' r -> means (fun L => do q <- e L; do q' <- e' L; add_in_place q q') (together B B') r
| e_larger : forall e B r r', r <= r' -> means e B r -> means e B r'.
