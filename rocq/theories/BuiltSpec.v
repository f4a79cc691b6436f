(* Specification of C61-C62: the mass distributions a user can put together from the library's solids and point masses,
   and a ball about the origin that contains each. *)
From Coq Require Import Reals List.
From Coquelicot Require Import Coquelicot.
From Verif Require Export SolidSpec ShapeSpec AchSpec BigSpec BodySpec.
From Verif Require Import Cplx.
Open Scope R_scope.

Inductive built : body -> R -> Prop :=
(* the solids, filled with density one *)
| b_cylinder_shell : forall H Ri Ro phic phih r, 0 <= Ri <= Ro -> 0 <= r -> Ro ^ 2 + (H / 2) ^ 2 <= r ^ 2 -> built (annular_sector H Ri Ro phic phih) r
| b_standing_shell : forall H Ri Ro phic phih r, 0 <= Ri <= Ro -> 0 <= r -> Ro ^ 2 + H ^ 2 <= r ^ 2 -> built (standing_sector H Ri Ro phic phih) r
| b_cone : forall P R_ phic phih r, 0 < P <= r -> 0 <= R_ <= r -> built (cone_sector P R_ phic phih) r
| b_box : forall H a b r, 0 <= r -> (a / 2) ^ 2 + (b / 2) ^ 2 + (H / 2) ^ 2 <= r ^ 2 -> built (box H a b) r
| b_prism : forall H d y1 y2 r, 0 < d -> 0 <= r -> d ^ 2 + y1 ^ 2 + (H / 2) ^ 2 <= r ^ 2 -> d ^ 2 + y2 ^ 2 + (H / 2) ^ 2 <= r ^ 2 -> built (triangular_prism H d y1 y2) r
| b_corner : forall x y z r, 0 < x <= r -> 0 < y <= r -> 0 < z <= r -> built (corner_tetrahedron x y z) r
| b_apex : forall x y1 y2 z r, 0 < x -> 0 < z <= r -> x ^ 2 + y1 ^ 2 <= r ^ 2 -> x ^ 2 + y2 ^ 2 <= r ^ 2 -> built (apex_tetrahedron x y1 y2 z) r
| b_pyramid : forall x y z r, 0 <= x -> 0 <= y -> 0 < z <= r -> x ^ 2 + y ^ 2 <= r ^ 2 -> built (rect_pyramid x y z) r
| b_ball : forall R_ r, 0 <= R_ <= r -> built (solid_ball R_) r
| b_frustum : forall z0 h ra rb r, 0 < h -> 0 <= ra -> 0 <= rb -> 0 <= r -> ra ^ 2 + z0 ^ 2 <= r ^ 2 -> rb ^ 2 + (z0 + h) ^ 2 <= r ^ 2 -> built (frustum z0 h ra rb) r
| b_plate : forall t w1 w2 h r, 0 < h -> 0 <= r -> h ^ 2 + (w1 / 2) ^ 2 + (t / 2) ^ 2 <= r ^ 2 -> h ^ 2 + (w2 / 2) ^ 2 + (t / 2) ^ 2 <= r ^ 2 -> built (trapezoidal_plate t w1 w2 h) r
| b_segment : forall t R_ d r, 0 <= r -> R_ ^ 2 + (t / 2) ^ 2 <= r ^ 2 -> built (cylinder_segment t R_ d) r
| b_hole : forall t R_ th r, cos th <> 0 -> 0 <= R_ -> 0 <= r -> Rabs t / 2 + R_ <= r * Rabs (cos th) -> built (slanted_hole t R_ th) r
(* point masses *)
| b_points : forall P r, 0 <= r -> (forall p, In p P -> vnorm (pp p) <= r) -> built (point_masses P) r
(* another density, possibly negative; a given mass *)
| b_dense : forall rho B r, built B r -> built (dense rho B) r
| b_of_mass : forall m V (B : body) r, V <> 0 -> B (fun _ _ _ => RtoC 1) (RtoC V) -> built B r -> built (of_mass m B) r
(* moved and turned *)
| b_shifted : forall t B r, built B r -> built (shifted t B) (r + vnorm t)
| b_turned : forall a b g B r, built B r -> built (turned a b g B) r
| b_turned_z : forall a B r, built B r -> built (turned_z a B) r
(* several together *)
| b_together : forall B1 B2 r, built B1 r -> built B2 r -> built (together B1 B2) r
| b_union : forall n B r, 0 <= r -> (forall i, (i < n)%nat -> built (B i) r) -> built (union_of n B) r
| b_larger : forall B r r', r <= r' -> built B r -> built B r'.
