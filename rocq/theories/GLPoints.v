(* Specification: an array of point masses made from three Gauss-Legendre rules *)
From Verif Require Export GLSpec PointSpec.
From Verif Require Import MomentSpec.
From Coq Require Import Reals List.
Import ListNotations.
Open Scope R_scope.

Definition on_rules (b : span) (rx ry rz : list (R * R)) (v : vec) (w : R) : Prop := let '(x, y, z) := v in exists wx wy wz,
  on_rule rx (s_x0 b) (s_x1 b) x wx /\ on_rule ry (s_y0 b) (s_y1 b) y wy /\ on_rule rz (s_z0 b) (s_z1 b) z wz /\ w = wx * wy * wz.
(* the points are the mapped points inside the solid, with masses in proportion to the products of the weights, together the mass asked for *)
Definition gl_fills (mass : R) (S : region) (b : span) (rx ry rz : list (R * R)) (pts : list pt) : Prop :=
  (forall v, In v (map pp pts) <-> (exists w, on_rules b rx ry rz v w) /\ S v) /\
  (exists c, forall p, In p pts -> exists w, on_rules b rx ry rz (pp p) w /\ pm p = c * w) /\ (pts <> [] -> total_mass pts = mass).
