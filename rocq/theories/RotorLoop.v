(* Model of the measuring loops of /repo/newt/example/test_ligo.py and test_ligo2.py (plots and messages not modelled). *)
From Coq Require Import Reals List ZArith.
From Verif Require Export Rotor.
From Verif Require Import Cplx.
Import ListNotations.
Open Scope R_scope.

(* ds[:-1] *)
Definition drop_last (ds : mats) : mats := mkmats (mlen ds - 1) (mget ds).
(* test_ligo2.py:67 repeated k times: cyltot = rot.rotate_qlm_Ds(cyltot, ds[:-1]) *)
Fixpoint turn_steps (ds : mats) (k : nat) (q : marr) : marr :=
  match k with O => q | S k => turn_steps ds k (rotate_qlm_Ds q (drop_last ds) false) end.
(* test_ligo2.py:56-68: dphi = 2*pi/nAng; ds = wignerDl(LMax+1, dphi, 0, 0); one row of forces per step *)
Fixpoint loop2 (LMax : Z) (ds : mats) (tm : marr) (cnst : R) (n : nat) (q : marr) : res (list (C * C * C)) :=
  match n with
  | O => Ok []
  | S n => let q' := rotate_qlm_Ds q (drop_last ds) false in
           do f <- multipole_force LMax q' tm 0 0 0 cnst;
           do fs <- loop2 LMax ds tm cnst n q'; Ok (f :: fs)
  end.
Definition ligo2_forces (LMax : Z) (tot tm : marr) (cnst : R) (nAng : nat) : res (list (C * C * C)) :=
  do ds <- wignerDl (LMax + 1) (2 * PI / INR nAng) 0 0; loop2 LMax ds tm cnst nAng tot.
(* test_ligo.py:42-50, test_virgo.py: for k in range(nAng): rotate_qlm(cyltot, k*dphi, 0, 0) *)
Definition ligo_forces (LMax : Z) (tot tm : marr) (cnst : R) (nAng : nat) : res (list (C * C * C)) :=
  fold_left (fun acc k => do fs <- acc; do f <- script_force LMax tot tm (INR k * (2 * PI / INR nAng)) cnst; Ok (fs ++ [f])) (seq 0 nAng) (Ok []).
