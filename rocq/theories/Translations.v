(* Model of /repo/newt/translations.py *)
From Verif Require Export MomentSpec ClebschGordan.
Open Scope C_scope.

(* translations.py:35-39 (= 96-100, 157-159): polar angles of the translation vector *)
Definition tphi (v : vec) : R := let '(x, y, z) := v in arctan2 y x.
Definition ttheta (v : vec) : R := let '(x, y, z) := v in acos (z / vnorm v).
(* :44-50, 105-111, 165-171: the table ylmS[l, N-l:N+l+1] = sph_harm(ms, l, phiP, thetaP),
   N the column offset of the table *)
Definition ylmS (N : Z) (v : vec) (i j : Z) : C :=
  if (Z.abs (j - N) <=? i)%Z then sph_harm (j - N) i (tphi v) (ttheta v) else 0.
(* sqrt(4*pi*exp(a)) *)
Definition sq4 (a : R) : R := sqrt (4 * PI * exp a).

(* translations.py:12-71 translate_qlm.  The zero vector returns the argument itself
   (the very same array object).  Cells are independent, so the += of the inner loops is
   the sum. *)
Definition translate_qlm (q : marr) (rP : vec) : marr :=
  let r := vnorm rP in
  if is0 r then q
  else
    let LMax := deg q in
    reflect (fill 0 (LMax + 1) LMax (fun L M =>
      zsum 0 (L + 1) (fun l =>
        let lP := (L - l)%Z in
        let fac := (sq4 (gammaln (2 * L + 2) - gammaln (2 * lP + 2) - gammaln (2 * l + 2)) * r ^ Z.to_nat lP)%R in
        zsum (- l) (l + 1) (fun m =>
          let mP := (M - m)%Z in
          if (Z.abs mP <=? lP)%Z
          then RtoC (fac * cgCoeff lP l mP m L M) * Cconj (ylmS LMax rP lP (LMax + mP)) * at_ q l (LMax + m)
          else 0))) (zeros LMax)).

(* translations.py:74-132 translate_Qlmb *)
Definition translate_Qlmb (Q : marr) (rP : vec) : marr :=
  let r := vnorm rP in
  if is0 r then Q
  else
    let LMax := deg Q in
    reflect (fill 0 (LMax + 1) LMax (fun L M =>
      zsum L (LMax + 1) (fun l =>
        let lP := (l - L)%Z in
        let fac := (sq4 (gammaln (2 * l + 1) - gammaln (2 * lP + 2) - gammaln (2 * L + 1)) * r ^ Z.to_nat lP)%R in
        zsum (- l) (l + 1) (fun m =>
          let mP := (M - m)%Z in
          if ((Z.abs mP <=? lP) && (lP <=? LMax))%bool%Z
          then RtoC (fac * cgCoeff lP l mP m L M) * ylmS LMax rP lP (LMax + mP) * at_ Q l (LMax + m)
          else 0))) (zeros LMax)).

(* for n in range(a, b): for m in range(-n, n+1): q[n, L+m] = f n m *)
Definition fill_all (a b L : Z) (f : Z -> Z -> C) (q : marr) : marr :=
  zfor a b (fun n q => zfor (- n) (n + 1) (fun m q => upd q n (L + m)%Z (f n m)) q) q.

(* translations.py:135-187 translate_q2Q.  For the zero vector arccos(0/0) is nan and so
   is every entry. *)
Definition translate_q2Q (q : marr) (rP : vec) : res marr :=
  let r := vnorm rP in
  if is0 r then Err NotFinite
  else
    let LMax := deg q in
    Ok (fill_all 0 (LMax + 1) LMax (fun L M =>
      zsum 0 (LMax + 1) (fun lP =>
        let l := (L + lP)%Z in
        let fac := (sq4 (gammaln (2 * l + 1) - gammaln (2 * lP + 2) - gammaln (2 * L + 1)) / r ^ Z.to_nat (l + 1))%R in
        zsum (- lP) (lP + 1) (fun mP =>
          let m := (M + mP)%Z in
          if (Z.abs m <=? l)%Z
          then RtoC (fac * cgCoeff lP l (- mP) m L M * sgnR mP) * ylmS (2 * LMax) rP l (2 * LMax + m) * at_ q lP (LMax + mP)
          else 0))) (zeros LMax)).
