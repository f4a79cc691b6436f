(* Model of the Yukawa recursions of /repo/newt/translationRecurs.py (lines 13-136, 315-335); nothing else in the package
   calls them.  Simplifications: arrays are functions of their indices; each entry is written once, so a column is given
   as a function of the columns before it; the debug print calls are left out; scipy.special.spherical_in/_kn are exact. *)
From Verif Require Export Res Glib MathSpec ClebschGordan YukSpec.
From Coq Require Import Lia.
Open Scope R_scope.

(* :315-323 get_bnm; (n-m-1)*(n-m)/((2*n-1)*(2*n+1)), sign of the DEGREE n *)
Definition get_bnm (n m : Z) : R :=
  if (Z.abs m >? n)%Z then 0
  else sqrt (IZR ((n - m - 1) * (n - m)) / IZR ((2 * n - 1) * (2 * n + 1))) * IZR (Z.sgn n).
(* :326-335 get_anm *)
Definition get_anm (n m : Z) : R :=
  let am := Z.abs m in
  if (am >? n)%Z then 0
  else sqrt (IZR ((n + am + 1) * (n - am + 1)) / IZR ((2 * n + 1) * (2 * n + 3))).
(* :34, :94 the starting column eflm[:, 0], of length 2*LMax+1 *)
Definition ecol0 (f : nat -> R) (LMax l : Z) : R :=
  if ((0 <=? l) && (l <=? 2 * LMax))%bool%Z then sgnR l * sqrt (2 * IZR l + 1) * f (Z.to_nat l) else 0.
(* :36-42, :96-102 the columns of eflm.  eflm[l-1, m] at l = 0 is the LAST row *)
Definition erow (LMax l : Z) : Z := if (l <? 0)%Z then (l + (2 * LMax + 1))%Z else l.
Fixpoint ecol (f : nat -> R) (LMax : Z) (m : nat) (l : Z) : R :=
  match m with
  | O => ecol0 f LMax l
  | S k =>
      let mz := Z.of_nat k in
      if ((0 <=? l) && (l <? 2 * LMax - mz))%bool%Z then
        let blmm := get_bnm l (- mz - 1) in
        let blmp := get_bnm (l + 1) mz in
        let bmm := get_bnm (mz + 1) (- mz - 1) in
        (ecol f LMax k (erow LMax (l - 1)) * blmm - ecol f LMax k (l + 1) * blmp) / bmm
      else 0
  end.
(* :47-63, :107-123: columns (n, n-1) of efm; efm has 2*LMax+1-2*m rows.  Column -1 (efm[:, -1]) is never used: at n = 0
   anmm is 0 *)
Fixpoint fcols (f : nat -> R) (LMax m : Z) (n : nat) : (Z -> R) * (Z -> R) :=
  match n with
  | O => (fun l => if ((0 <=? l) && (l <=? 2 * (LMax - m)))%bool%Z then ecol f LMax (Z.to_nat m) (m + l)%Z else 0, fun _ => 0)
  | S k =>
      let '(c, b) := fcols f LMax m k in
      let nz := Z.of_nat k in
      (fun l =>
         if ((nz + 1 <=? l) && (l <? 2 * (LMax - m) - nz))%bool%Z then
           let anm := get_anm (nz + m) m in
           let alm := get_anm (l + m) m in
           let almm := get_anm (l - 1 + m) m in
           let anmm := get_anm (nz - 1 + m) m in
           if is0 anmm then (alm * c (l + 1)%Z - almm * c (l - 1)%Z) / anm
           else (almm * c (l - 1)%Z - alm * c (l + 1)%Z + anmm * b l) / anm
         else 0, c)
  end.
Definition efm (f : nat -> R) (LMax m l n : Z) : R := fst (fcols f LMax m (Z.to_nat n)) l.
(* :66-73, :126-133: truncate to (LMax-m+1) x (LMax-m+1), add the signed transpose, take its diagonal off *)
Definition efm_final (f : nat -> R) (LMax m i j : Z) : R :=
  let enl i j := efm f LMax m j i * (sgnR (m + i) * sgnR (m + j)) in
  efm f LMax m i j + enl i j - (if (i =? j)%Z then enl i i else 0).
(* the pair (eflm, efms); efms is a list of LMax+1 matrices, the m-th with rows and columns 0..LMax-m *)
Record yuk := mkyuk { y_eflm : Z -> Z -> R; y_len : Z; y_efm : Z -> Z -> Z -> R }.
Definition yuk_recurs (f : nat -> R) (LMax : Z) : res yuk :=
  if (LMax <? 0)%Z then Err ValueError      (* np.zeros of a negative size *)
  else Ok (mkyuk (fun l m => ecol f LMax (Z.to_nat m) l) (LMax + 1) (efm_final f LMax)).
(* :13-75 transl_yuk_z_SR_recurs; spherical_kn is infinite at 0 and nan for negative arguments *)
Definition transl_yuk_z_SR_recurs (LMax : Z) (dr k : R) : res yuk :=
  if (LMax <? 0)%Z then Err ValueError
  else if Rle_dec (k * dr) 0 then Err NotFinite
  else yuk_recurs (fun n => sph_kn n (k * dr)) LMax.
(* :78-136 transl_yuk_z_RR_recurs *)
Definition transl_yuk_z_RR_recurs (LMax : Z) (dr k : R) : res yuk := yuk_recurs (fun n => sph_in n (k * dr)) LMax.
