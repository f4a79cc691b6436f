(* ------------------------------------------------------------------------
   Mathematical specification vocabulary (textbook definitions only).
   These definitions are the meaning given to the scipy/numpy special
   functions called by /repo/newt and the vocabulary of the theorems.
   ------------------------------------------------------------------------ *)
From Verif Require Export Sums.
Open Scope C_scope.

(* n! for an integer n >= 0 (scipy.special.factorial; exp(gammaln(n+1))). *)
Definition zfact (n : Z) : R := INR (fact (Z.to_nat n)).

(* binomial coefficient scipy.special.comb(n,k): 0 when k<0, n<0 or k>n *)
Definition zcomb (n k : Z) : R :=
  if ((k <? 0)%Z || (n <? 0)%Z || (n <? k)%Z)%bool then 0%R
  else (zfact n / (zfact k * zfact (n - k)))%R.

(* divided power a^n/n!, 0 for negative n *)
Definition dp (a : C) (n : Z) : C :=
  if (n <? 0)%Z then 0 else cpow a (Z.to_nat n) / RtoC (zfact n).

(* trinomial coefficient polynomial: the coefficient of s^(l+m) t^(l-m) in
   (A s^2 + z s t + B t^2)^l / l! *)
Definition tri (l m : Z) (A z B : C) : C :=
  zsum 0 (l + 1) (fun k => dp z (l - m - 2 * k) * dp A (m + k) * dp B k).

(* Regular solid harmonic of degree l and order m at (x,y,z), unnormalised:
   S_l^m = sum_k z^(l-m-2k)/(l-m-2k)! * (-(x-iy)/2)^(m+k)/(m+k)! * ((x+iy)/2)^k/k!
   (the harmonics of Stirling (2017) used by multipoleLib.force_basis). *)
Definition solid (l m : Z) (x y z : R) : C :=
  tri l m (- (RtoC x - Ci * RtoC y) / RtoC 2) (RtoC z) ((RtoC x + Ci * RtoC y) / RtoC 2).

(* normalisation sqrt((2l+1)(l+m)!(l-m)!/(4 pi)) turning S_l^m into r^l conj(Y_lm) *)
Definition nrm (l m : Z) : R := sqrt ((2 * IZR l + 1) * zfact (l + m) * zfact (l - m) / (4 * PI)).

(* ---- associated Legendre functions: scipy.special.lpmn ------------------
   The upward recurrences computed by scipy (Zhang & Jin LPMN), |x| <= 1,
   with Condon-Shortley phase:
     P_m^m     = (-1)^m (2m-1)!! (1-x^2)^(m/2)
     P_{m+1}^m = (2m+1) x P_m^m
     (l-m) P_l^m = (2l-1) x P_{l-1}^m - (l+m-1) P_{l-2}^m                    *)
Fixpoint Pmm (m : nat) (x : R) : R :=
  match m with
  | O => 1%R
  | S k => (- (2 * INR k + 1) * sqrt (1 - x ^ 2) * Pmm k x)%R
  end.
(* pair (P_{m+i}^m, P_{m+i-1}^m) *)
Fixpoint Plm_pair (m i : nat) (x : R) : R * R :=
  match i with
  | O => (Pmm m x, 0%R)
  | S j => let p := Plm_pair m j x in
           (((2 * INR (m + i) - 1) * x * fst p - (INR (m + i + m) - 1) * snd p) / INR i, fst p)%R
  end.
Definition Plm (l m : Z) (x : R) : R :=
  if ((m <? 0)%Z || (l <? m)%Z)%bool then 0%R
  else fst (Plm_pair (Z.to_nat m) (Z.to_nat (l - m)) x).

(* scipy.special.sph_harm(m, l, phi, theta) (phi azimuth, theta polar):
   sqrt((2l+1)/(4 pi) (l-m)!/(l+m)!) P_l^m(cos theta) e^{i m phi}, and
   Y_{l,-m} = (-1)^m conj Y_{l,m}. *)
Definition sph_harm (m l : Z) (phi theta : R) : C :=
  let am := Z.abs m in
  let base := RtoC (sqrt ((2 * IZR l + 1) / (4 * PI) * (zfact (l - am) / zfact (l + am)))
                    * Plm l am (cos theta))
              * cexpi (IZR am * phi) in
  if (m <? 0)%Z then sgnC am * Cconj base else base.

(* numpy.arctan2(y, x) (signed zeros not modelled), in (-pi, pi] *)
Definition arctan2 (y x : R) : R :=
  let rho := sqrt (x ^ 2 + y ^ 2) in
  if Req_EM_T rho 0 then 0%R
  else if Rle_dec 0 y then acos (x / rho) else (- acos (x / rho))%R.

(* a % b for b > 0 *)
Definition pymod (a b : R) : R := (a - b * IZR (Int_part (a / b)))%R.
