(* Model of /repo/newt/pg2Multi.py *)
From Verif Require Export MomentSpec.
Open Scope C_scope.

(* fancy indexing a[ids]: IndexError when an index is out of bounds *)
Fixpoint take {A} (a : list A) (ids : list nat) : res (list A) :=
  match ids with
  | nil => Ok nil
  | i :: r => match nth_error a i with
              | None => Err IndexError
              | Some x => do xs <- take a r; Ok (x :: xs)
              end
  end.
(* numpy broadcasting of two 1-D operands *)
Definition bcast2 {A B D} (f : A -> B -> D) (xs : list A) (ys : list B) : res (list D) :=
  if Nat.eqb (length xs) (length ys) then Ok (map (fun p => f (fst p) (snd p)) (combine xs ys))
  else match xs, ys with
       | x :: nil, _ => Ok (map (f x) ys)
       | _, y :: nil => Ok (map (fun x => f x y) xs)
       | _, _ => Err ValueError
       end.
Definition csum (l : list C) : C := lsum (fun x => x) l.   (* np.sum *)
Definition dummy : pt := mkpt 0 v0.

(* pg2Multi.py:30, 126: r = sqrt(x**2 + y**2 + z**2) *)
Definition rlist (ma : list pt) : list R := map (fun p => vnorm (pp p)) ma.
(* :31, 127: rids = np.where(r != 0)[0] *)
Definition rids (ma : list pt) : list nat :=
  filter (fun i => negb (is0 (nth i (rlist ma) 0%R))) (seq 0 (length ma)).
Definition th_of (p : pt) : R := let '(x, y, z) := pp p in acos (z / vnorm (pp p)).
Definition ph_of (p : pt) : R := let '(x, y, z) := pp p in pymod (arctan2 y x) (2 * PI).
(* :32-33, 128-129: theta = arccos(z[rids]/r[rids]), phi = arctan2(y[rids], x[rids]) % 2pi *)
Definition thetas (ma : list pt) : list R := map (fun i => th_of (nth i ma dummy)) (rids ma).
Definition phis (ma : list pt) : list R := map (fun i => ph_of (nth i ma dummy)) (rids ma).

(* pg2Multi.py:11-39 qmoment *)
Definition qmoment (l m : Z) (ma : list pt) : res C :=
  if (l =? 0)%Z then Ok (csum (map (fun p => RtoC (pm p / sqrt (4 * PI))) ma))
  else
    let w := map (fun p => RtoC (pm p * vnorm (pp p) ^ Z.to_nat l)) ma in
    let y := map (fun tp => Cconj (sph_harm m l (snd tp) (fst tp))) (combine (thetas ma) (phis ma)) in
    do v <- bcast2 Cmult w y; Ok (csum v).

(* pg2Multi.py:42-69 Qmomentb *)
Definition Qmomentb (l m : Z) (ma : list pt) : C :=
  if existsb is0 (rlist ma) then 0
  else csum (map (fun p => RtoC (pm p) * sph_harm m l (ph_of p) (th_of p) / RtoC (vnorm (pp p) ^ Z.to_nat (l + 1))) ma).

(* the loop of pg2Multi.py:135-140 and 224-229:
     for n in range(1, L+1): for m in range(n+1):
        v = conj(sph_harm(m, n, phi[rids], theta[rids])); v *= mass[rids]*rad[rids]; q[n, L+m] = sum(v)
   rad n p is the radial factor of point p *)
Definition mloop (L : Z) (ma : list pt) (rad : Z -> pt -> R) (q0 : marr) : res marr :=
  zfor 1 (L + 1) (fun n acc => zfor 0 (n + 1) (fun m acc =>
    do q <- acc;
    do ph <- take (phis ma) (rids ma);
    do th <- take (thetas ma) (rids ma);
    let v := map (fun tp => Cconj (sph_harm m n (snd tp) (fst tp))) (combine th ph) in
    let w := map (fun i => let p := nth i ma dummy in RtoC (pm p * rad n p)) (rids ma) in
    Ok (upd q n (L + m)%Z (csum (map (fun vw => fst vw * snd vw) (combine v w))))) acc) (Ok q0).

(* pg2Multi.py:107-148 qmoments *)
Definition qmoments (L : Z) (ma : list pt) : res marr :=
  let q0 := upd (zeros L) 0 L (csum (map (fun p => RtoC (pm p / sqrt (4 * PI))) ma)) in
  do q <- mloop L ma (fun n p => vnorm (pp p) ^ Z.to_nat n)%R q0;
  Ok (reflect q).

(* pg2Multi.py:151-189 Qmomentsb *)
Definition Qmomentsb (L : Z) (ma : list pt) : marr :=
  if existsb is0 (rlist ma) then zeros L
  else reflect (fill 0 (L + 1) L (fun n m =>
         csum (map (fun p => RtoC (pm p) * sph_harm m n (ph_of p) (th_of p) / RtoC (vnorm (pp p) ^ Z.to_nat (n + 1))) ma))
         (zeros L)).

(* pg2Multi.py:72-105 imoment and 192-237 imoments.  bes n x stands for
   scipy.special.spherical_in(n, x); lmbd = 0 is outside the model. *)
Definition imoment (bes : Z -> R -> R) (l m : Z) (lmbd : R) (ma : list pt) : res C :=
  if (l =? 0)%Z then Ok (csum (map (fun p => RtoC (pm p * bes l (vnorm (pp p) / lmbd)%R / sqrt (4 * PI))) ma))
  else
    let w := map (fun p => RtoC (pm p * bes l (vnorm (pp p) / lmbd)%R)) ma in
    let y := map (fun tp => Cconj (sph_harm m l (snd tp) (fst tp))) (combine (thetas ma) (phis ma)) in
    do v <- bcast2 Cmult w y; Ok (csum v).
(* NB pg2Multi.py:225 evaluates spherical_in(l, .) with the maximum order l, not the loop's n *)
Definition imoments (bes : Z -> R -> R) (L : Z) (lmbd : R) (ma : list pt) : res marr :=
  let q0 := upd (zeros L) 0 L (csum (map (fun p => RtoC (pm p * bes 0%Z (vnorm (pp p) / lmbd)%R / sqrt (4 * PI))) ma)) in
  do q <- mloop L ma (fun n p => bes L (vnorm (pp p) / lmbd)%R) q0;
  Ok (reflect q).
