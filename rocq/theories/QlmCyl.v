(* Model of /repo/newt/qlm.py:683-699 cyl_mom *)
From Verif Require Export Qlm.
Open Scope R_scope.

(* qlm.py:684 gamFac = sqrt(exp(gammaln(L-M+1) - gammaln(L+M+1))); gammaln of a non-positive integer is +inf,
   so for L+M < 0 the factor is sqrt(exp(-inf)) = 0 *)
Definition cyl_gamfac (L M : Z) : R :=
  if (L + M <? 0)%Z then 0 else sqrt (exp (gammaln (L - M + 1) - gammaln (L + M + 1))).
(* qlm.py:685 *)
Definition cyl_fact (L M : Z) : R :=
  sqrt ((2 * IZR L + 1) / (4 * PI)) * cyl_gamfac L M * zfact (L - M) / (2 * PI).
(* qlm.py:690-692 momval[i], 0 <= i <= L+2: sp.lpmn(L+2, L+2, x)[0][:, -1] is P_{L+2}^i(x), i = 0..L+2 *)
Definition cyl_momval (L : Z) (H Rad : R) (i : Z) : R :=
  let R22 := sqrt (Rad ^ 2 + H ^ 2) in Plm (L + 2) i (H / R22) - Plm (L + 2) i (- H / R22).
(* qlm.py:694 *)
Definition cyl_fac2 (M k : Z) : R :=
  (IZR k * 2 + 1 + IZR M) * 2 * IZR M / ((IZR M + 2 * IZR k) * (IZR M + 2 * IZR k + 2)).
(* sum over k in range(n) of real terms: np.sum *)
Definition np_sum (n : Z) (f : Z -> R) : R := fold_right (fun k s => f (Z.of_nat k) + s) 0 (seq 0 (Z.to_nat n)).

(* qlm.py:683-699, L >= 0.  len(ks) = max(L-M, 0).  For M >= L ks is empty, so momval[-0:] is the whole array of
   length L+3 and fac2*momval[-0:] cannot be broadcast (0,)x(L+3,); for L-M > L+3 the slice is shorter than fac2;
   both raise ValueError.  Otherwise momval[-len(ks):][k] = momval[L+3-(L-M)+k] = momval[M+3+k].
   R22 = 0 makes theta22 nan; for M < 0 even the denominators of fac2 vanish (inf/nan): NotFinite.
   For M = 0 the nan/0 sum is discarded and overwritten (:697-698).  The argument dens is not used. *)
Definition cyl_mom (L M : Z) (dens H Rad : R) : res R :=
  if ((L <=? M) || (L + 3 <? L - M))%Z%bool then Err ValueError
  else
    let R22 := sqrt (Rad ^ 2 + H ^ 2) in
    if is0 R22 then Err NotFinite
    else if (M =? 0)%Z then Ok (cyl_fact L M * Rad * pw R22 (L + 2) * cyl_momval L H Rad 1)
    else if ((M <? 0) && Z.even M)%Z%bool then Err NotFinite
    else Ok (np_sum (L - M) (fun k => cyl_fact L M * cyl_fac2 M k * Rad * pw R22 (L + 2) * cyl_momval L H Rad (M + 3 + k))).
