(* Specification for newt/shapes.py: mass distributions (homogeneous solids and point masses alike), rigid motions of
   them, and what it means for a Shape to describe one. *)
From Verif Require Export SolidSpec RotSpec Shapes.
From Verif Require Import Cplx.
Open Scope C_scope.

(* the distribution moved by t *)
Definition shifted (t : vec) (D : body) : body := fun f I =>
  D (fun x y z => let '(x', y', z') := vadd (x, y, z) t in f x' y' z') I.
(* turned by the Euler angles: gamma about z, then beta about y, then alpha about z *)
Definition turned (alpha beta gamma : R) (D : body) : body := fun f I =>
  D (fun x y z => let '(x', y', z') := zrot alpha (yrot beta (zrot gamma (x, y, z))) in f x' y' z') I.
(* several distributions together *)
Definition together (D1 D2 : body) : body := fun f I => exists I1 I2, D1 f I1 /\ D2 f I2 /\ I = I1 + I2.
(* multiplied by a density *)
Definition dense (rho : R) (B : body) : body := fun f I => exists J, B f J /\ I = RtoC rho * J.
(* finitely many point masses *)
Definition point_masses (P : list pt) : body := fun f I =>
  I = lsum (fun p => RtoC (pm p) * (let '(x, y, z) := pp p in f x y z)) P.

(* the body B with its density chosen so that its mass is m *)
Definition of_mass (m : R) (B : body) : body := fun f I =>
  exists V J, V <> 0%R /\ B (fun _ _ _ => 1) (RtoC V) /\ B f J /\ I = RtoC (m / V) * J.

(* what a user knows about an inner Shape: the mass distribution it stands for, the degree up to which its moments are
   meant, and whether its centre of mass is meant too *)
Record known := mkknown { k_body : body; k_deg : Z; k_com : bool }.
(* the Shape s is an inner one and its moments up to the degree are those of the distribution; its mass is that of the
   distribution; its centre of mass, if meant and finite, too *)
Record describes (k : known) (s : shape) : Prop := {
  d_inner : s_inner s = true;
  d_deg : (0 <= k_deg k <= s_lmax s)%Z;
  d_qlm : exists q, s_qlm s = Ok q /\ deg q = s_lmax s /\ reality q /\ corners0 q /\
     forall l m, (0 <= l <= k_deg k)%Z -> (Z.abs m <= l)%Z -> k_body k (fun x y z => rsolid l m (x, y, z)) (mom q l m);
  d_mass : k_body k (fun _ _ _ => 1) (RtoC (s_mass s));
  d_com : forall cx cy cz, k_com k = true -> s_com s = Ok (cx, cy, cz) ->
     k_body k (fun x _ _ => RtoC x) (RtoC (s_mass s * cx)) /\ k_body k (fun _ y _ => RtoC y) (RtoC (s_mass s * cy)) /\
     k_body k (fun _ _ z => RtoC z) (RtoC (s_mass s * cz)) }.

(* what a user believes about each named shape: an inner shape known so and so, or None - an outer shape *)
Definition belief := nat -> option known.
Definition bput (w : belief) (i : nat) x : belief := fun j => if Nat.eqb j i then x else w j.
(* all arguments are inner shapes *)
Fixpoint gather (w : belief) (l : list (option nat)) : option (list known) :=
  match l with
  | [] => Some []
  | Some j :: l => match w j, gather w l with Some x, Some r => Some (x :: r) | _, _ => None end
  | None :: _ => None
  end.
Definition on_body (f : body -> body) (k : known) : known := mkknown (f (k_body k)) (k_deg k) (k_com k).
Definition merge (x y : known) : known :=
  mkknown (together (k_body x) (k_body y)) (Z.min (k_deg x) (k_deg y)) (k_com x && k_com y).
(* what each statement should do *)
Definition meaning (w : belief) (o : op) : belief :=
  match o with
  | ORotate i a b g => match w i with Some k => bput w i (Some (on_body (turned a b g) k)) | None => w end
  | OTranslate i t true => match w i with Some k => bput w i (Some (on_body (shifted t) k)) | None => w end
  | OTranslate i t false => bput w i None
  | OAdd i (NShape j) => match w i, w j with Some x, Some y => bput w i (Some (merge x y)) | _, _ => w end
  | OAdd i (NList l) => match w i, gather w l with Some x, Some r => bput w i (Some (fold_left merge r x)) | _, _ => w end
  | OAdd i NOther => w
  end.
Definition agrees (st : store) (w : belief) : Prop :=
  forall i, match w i with
            | Some k => regular (k_body k) /\ describes k (st i) /\ s_mesh (st i) <> None
            | None => s_inner (st i) = false
            end.
