(* Model of the scripts in /repo/newt/example that rotor_of a rotor from rotated copies of one body
   and compute its torque and force on a test mass.  The plotting and the printed messages are not modelled. *)
From Verif Require Export Translations Rotations MultipoleLib Qlm Shapes.
Open Scope C_scope.

(* a += b for two arrays of the same shape (the only case that occurs here) *)
Definition add_in_place (a b : marr) : res marr := if (deg a =? deg b)%Z then Ok (arr_add a b) else Err ValueError.
(* test_ligo.py:30-34, test_ligo2.py:33-37, test_virgo.py:32-34:
   tot = np.copy(q); tot += rot.rotate_qlm(q, a, 0, 0) for each angle a *)
Definition rotor_of (q : marr) (angles : list R) : res marr :=
  fold_left (fun acc a => do s <- acc; do r <- rotate_qlm q a 0 0; add_in_place s r) angles (Ok q).
(* the angles 2 pi k / N, k = 1..N-1 *)
Definition steps (N : nat) : list R := map (fun k => (2 * PI * INR k / INR N)%R) (seq 1 (N - 1)).
(* test_ligo.py:27-34: cyltot, two rings of cylinders at radii r3 (three) and r2 (two) *)
Definition ligo_rotor (LMax : Z) (mc hc rc r3 r2 : R) : res marr :=
  do cyl <- cylinder LMax mc hc rc;
  let cyl3i := translate_qlm cyl (r3, 0, 0)%R in
  let cyl2i := translate_qlm cyl (r2, 0, 0)%R in
  do t1 <- rotor_of cyl3i (2 * PI / 3 :: 4 * PI / 3 :: nil)%R;
  do t2 <- add_in_place t1 cyl2i;
  do r <- rotate_qlm cyl2i PI 0 0;
  add_in_place t2 r.
(* test_virgo.py:32-34 *)
Definition virgo_rotor (LMax : Z) (mc hc irc orc beta : R) : res marr :=
  do arc <- annulus LMax (mc / 2) hc irc orc 0 beta;
  do arc2 <- rotate_qlm arc PI 0 0;
  add_in_place arc arc2.
(* test_ligo.py:37-39, test_virgo.py:37-39: a cylinder turned and moved to (dx, dy, 0), as a field *)
Definition mirror_field (LMax : Z) (mtm htm rtm dx dy : R) : res marr :=
  do tm <- cylinder LMax mtm htm rtm;
  do tm <- rotate_qlm tm (PI / 2) (PI / 2) (- PI / 2);
  translate_q2Q tm (dx, dy, 0)%R.
(* test_ligo.py:48-50, test_virgo.py:48-50: the force at rotor angle x (default constant of multipole_force: cnst) *)
Definition script_force (LMax : Z) (tot tm : marr) (x cnst : R) : res (C * C * C) :=
  do k <- rotate_qlm tot x 0 0; multipole_force LMax k tm 0 0 0 cnst.
