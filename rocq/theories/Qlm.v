(* Model of /repo/newt/qlm.py *)
From Verif Require Export MomentSpec ClebschGordan.
Open Scope C_scope.

Definition rle (x y : R) : bool := if Rle_dec x y then true else false.     (* x <= y *)
Definition rlt (x y : R) : bool := if Rlt_dec x y then true else false.     (* x < y *)
Definition req (x y : R) : bool := if Req_EM_T x y then true else false.    (* x == y *)
(* x**n for an integer n, possibly negative (x = 0 is then outside the model) *)
Definition pw (x : R) (n : Z) : R := powerRZ x n.
(* np.sinc(x) = sin(pi x)/(pi x), 1 at 0 *)
Definition np_sinc (x : R) : R := if Req_EM_T x 0 then 1%R else (sin (PI * x) / (PI * x))%R.
(* the common factor mass*np.sqrt(1/(4.*np.pi)) *)
Definition factor (mass : R) : R := (mass * sqrt (1 / (4 * PI)))%R.
(* np.sqrt(np.exp(sp.gammaln(l+m+1)+sp.gammaln(l-m+1))) *)
Definition lmfac (l m : Z) : R := sqrt (exp (gammaln (l + m + 1) + gammaln (l - m + 1))).
(* q /= c *)
Definition mdiv (q : marr) (c : R) : marr := mkarr (deg q) (fun i j => at_ q i j / RtoC c).

(* qlm.py:11-34 sphere *)
Definition sphere (L : Z) (mass Rad : R) : marr := upd (zeros L) 0 L (RtoC (mass / sqrt (4 * PI))).

(* qlm.py:37-74 cylinder.  Row l of the table Slk: Slk[l,0] from row l-2, then
   Slk[l,k] from Slk[l,k-1]; Slk[l] is zero for k > l//2, so np.sum is the sum over k <= l//2.
   h is l/2 (the loop visits even l only). *)
Fixpoint Slk0 (H : R) (h : nat) : R :=                          (* Slk[2h, 0], :68-70 *)
  match h with
  | O => 1%R
  | S h' => let l := (2 * INR h)%R in ((l - 1) * H ^ 2 / (4 * (l + 1)) * Slk0 H h')%R
  end.
Fixpoint Slk (H Rad : R) (h k : nat) : R :=                       (* Slk[2h, k], :71-72 *)
  match k with
  | O => Slk0 H h
  | S k' => let l := (2 * INR h)%R in
    (- Slk H Rad h k' * (l - 2 * INR k + 3) * (l - 2 * INR k + 2) / ((INR k + 1) * INR k) * (Rad / H) ^ 2)%R
  end.
Definition Slk_sum (H Rad : R) (h : nat) : C := nsum (S h) (fun k => RtoC (Slk H Rad h k)).
(* for l in range(2, L+1, 2): qlm[l, L] = factor*sqrt(2l+1)*sum(Slk[l])  (:69-73) *)
Definition cylinder (L : Z) (mass H Rad : R) : res marr :=
  if (rle H 0 || rle Rad 0)%bool then Err ValueError
  else Ok (zfor 1 (L / 2 + 1) (fun h q =>
             upd q (2 * h)%Z L (RtoC (factor mass * sqrt (2 * IZR (2 * h) + 1)) * Slk_sum H Rad (Z.to_nat h)))
           (upd (zeros L) 0 L (RtoC (factor mass * 1)))).

(* qlm.py:77-133 annulus; entry (l,m) of the double loop *)
Definition annulus_entry (mass H Ri Ro phic phih : R) (l m : Z) : C :=
  if Z.even (l - m)
  then zsum 0 ((l - m) / 2 + 1) (fun k =>
         let gamsum := (gammaln (k + 1) + gammaln (m + k + 1) + gammaln (l - m - 2 * k + 2))%R in
         sgnC (k + m) * RtoC (pw H (l - 2 * k - m) / (pw 2 (l - 1) * IZR (2 * k + m + 2))
           * ((pw Ro (2 * k + m + 2) - pw Ri (2 * k + m + 2)) / exp gamsum)))
       * (RtoC (factor mass * sqrt (2 * IZR l + 1) * lmfac l m * np_sinc (IZR m * phih / PI)) * cexpi (- (IZR m * phic)))
  else 0.
(* Ro = Ri passes the guard and then divides by zero *)
Definition annulus (L : Z) (mass H Ri Ro phic phih : R) : res marr :=
  if (rle H 0 || rlt Ro Ri || rle phih 0 || rlt PI phih || rlt Ri 0)%bool then Err ValueError
  else
    let rfac := (Ro ^ 2 - Ri ^ 2)%R in
    if is0 rfac then Err NotFinite
    else Ok (reflect (mdiv (fill 0 (L + 1) L (annulus_entry mass H Ri Ro phic phih) (zeros L)) rfac)).

(* qlm.py:136-184 cone *)
Definition cone_entry (mass P Rad phic phih : R) (l m : Z) : C :=
  zsum 0 ((l - m) / 2 + 1) (fun k =>
    let gamsum := (gammaln (2 * k + m + 2) - (gammaln (k + 1) + gammaln (m + k + 1)))%R in
    sgnC (k + m) * RtoC (pw P (l - 2 * k - m) * pw Rad (2 * k + m) / pw 2 (2 * k + m - 1) * exp gamsum))
  * (RtoC (3 * factor mass * sqrt (2 * IZR l + 1) / exp (gammaln (l + 4)) * lmfac l m * np_sinc (IZR m * phih / PI))
     * cexpi (- (IZR m * phic))).
Definition cone (L : Z) (mass P Rad phic phih : R) : res marr :=
  if (rle P 0 || rle Rad 0 || rle phih 0 || rlt PI phih)%bool then Err ValueError
  else Ok (reflect (fill 0 (L + 1) L (cone_entry mass P Rad phic phih) (zeros L))).

(* the triple sum shared by tri_iso_prism (:220-241) and tri_iso_prism2 (:283-303);
   t is aod = a/(2d) resp. tan(phih) *)
Definition iso_entry (mass H d t phic : R) (l m : Z) : C :=
  if Z.even (l - m)
  then zsum 0 ((l - m) / 2 + 1) (fun k =>
         let gamsum := (gammaln (k + 1) + gammaln (m + k + 1) + gammaln (l - m - 2 * k + 2))%R in
         let psum := zsum 0 (m / 2 + 1) (fun p =>
           sgnC p * RtoC (zcomb m (2 * p)) *
           zsum 0 (k + 1) (fun j => RtoC (zcomb k j * pw t (2 * j + 2 * p) / IZR (2 * j + 2 * p + 1)))) in
         sgnC (k + m) * RtoC (pw H (l - 2 * k - m) * pw d (2 * k + m) / IZR (2 * k + m + 2)) * (psum / RtoC (exp gamsum)))
       * (RtoC (factor mass * sqrt (2 * IZR l + 1) / pw 2 (l - 1) * lmfac l m) * cexpi (- (IZR m * phic)))
  else 0.
(* qlm.py:187-247 tri_iso_prism *)
Definition tri_iso_prism (L : Z) (mass H a d phic : R) : res marr :=
  if (rle H 0 || req d 0 || rle a 0)%bool then Err ValueError
  else Ok (reflect (fill 0 (L + 1) L (iso_entry mass H d (a / (2 * d)) phic) (zeros L))).
(* qlm.py:250-309 tri_iso_prism2.  phih = pi/2 passes the guard; tan is then not finite in exact
   arithmetic (numpy returns about 1.6e16) *)
Definition tri_iso_prism2 (L : Z) (mass H Rad phic phih : R) : res marr :=
  if (rle H 0 || rle Rad 0 || rle phih 0 || rlt (PI / 2) phih)%bool then Err ValueError
  else if is0 (cos phih) then Err NotFinite
  else Ok (reflect (fill 0 (L + 1) L (iso_entry mass H (Rad * cos phih) (tan phih) phic) (zeros L))).

(* qlm.py:312-373 tri_prism *)
Definition tri_prism_entry (mass H d y1 y2 : R) (l m : Z) : C :=
  if Z.even (l - m)
  then zsum 0 ((l - m) / 2 + 1) (fun k =>
         let gamsum := (gammaln (k + 1) + gammaln (m + k + 1) + gammaln (l - m - 2 * k + 2))%R in
         let psum := zsum 0 (m + k + 1) (fun p => RtoC (zcomb (m + k) p) *
           zsum 0 (k + 1) (fun j => let pj := (p + j)%Z in
             RtoC (zcomb k j) * (cpow Ci (Z.to_nat pj) * sgnC p * RtoC (pw y2 (pj + 1) - pw y1 (pj + 1)))
             * RtoC (pw d (- pj) / IZR (pj + 1)))) in
         sgnC (k + m) * RtoC (pw H (l - 2 * k - m) * pw d (2 * k + m) / IZR (2 * k + m + 2)) * (psum / RtoC (exp gamsum)))
       * RtoC (factor mass * sqrt (2 * IZR l + 1) / pw 2 (l - 1) * lmfac l m / (y2 - y1))
  else 0.
Definition tri_prism (L : Z) (mass H d y1 y2 : R) : res marr :=
  if (rle H 0 || req d 0 || req y1 y2)%bool then Err ValueError
  else Ok (reflect (fill 0 (L + 1) L (tri_prism_entry mass H d y1 y2) (zeros L))).

(* qlm.py:376-435 rect_prism; the loops visit even l and even m only *)
Definition rect_entry (mass H a b phic : R) (l m : Z) : C :=
  if (Z.even l && Z.even m)%bool
  then zsum 0 ((l - m) / 2 + 1) (fun k =>
         let gamsum := (gammaln (k + 1) + gammaln (m + k + 1) + gammaln (l - m - 2 * k + 2))%R in
         let psum := zsum 0 (m / 2 + 1) (fun p =>
           sgnC p * RtoC (zcomb m (2 * p)) *
           zsum 0 (k + 1) (fun j => let jp2 := (2 * j + 2 * p)%Z in
             RtoC (zcomb k j) * (RtoC (pw a (2 * k + m - jp2) * pw b jp2) + sgnC (m / 2) * RtoC (pw b (2 * k + m - jp2) * pw a jp2))
             / RtoC (IZR (jp2 + 1)))) in
         sgnC k * RtoC (pw H (l - 2 * k - m) / (IZR (2 * k + m + 2) * pw 2 (l + 2 * k + m))) * (psum / RtoC (exp gamsum)))
       * (RtoC (factor mass * sqrt (2 * IZR l + 1) * lmfac l m) * cexpi (- (IZR m * phic)))
  else 0.
Definition rect_prism (L : Z) (mass H a b phic : R) : res marr :=
  if (rle H 0 || rle b 0 || rle a 0)%bool then Err ValueError
  else Ok (reflect (fill 0 (L + 1) L (rect_entry mass H a b phic) (zeros L))).

(* qlm.py:438-497 ngon_prism; the loop visits multiples m of N only.  N = 1, 2 pass the guard: in
   exact arithmetic tan(pi/N) is then 0 resp. undefined and its powers are not finite
   (numpy returns rounding noise) *)
Definition ngon_entry (mass H a phic : R) (N : Z) (l m : Z) : C :=
  let tanN := tan (PI / IZR N) in
  if ((m mod N =? 0)%Z && Z.even (l - m))%bool
  then zsum 0 ((l - m) / 2 + 1) (fun k =>
         let gamsum := (gammaln (k + 1) + gammaln (m + k + 1) + gammaln (l - m - 2 * k + 2))%R in
         let psum := zsum 0 (m / 2 + 1) (fun p =>
           sgnC p * RtoC (zcomb m (2 * p)) *
           zsum 0 (k + 1) (fun j => let jp2 := (2 * j + 2 * p)%Z in
             RtoC (zcomb k j * pw tanN (jp2 - 2 * k - m) / IZR (jp2 + 1)))) in
         sgnC (k + m) * RtoC (pw H (l - 2 * k - m) * pw a (2 * k + m) / (IZR (2 * k + m + 2) * pw 2 (l + 2 * k + m - 1))) * (psum / RtoC (exp gamsum)))
       * (RtoC (factor mass * sqrt (2 * IZR l + 1) * lmfac l m) * cexpi (- (IZR m * phic)))
  else 0.
Definition ngon_prism (L : Z) (mass H a phic : R) (N : Z) : res marr :=
  if (rle H 0 || rle a 0 || (N <=? 0)%Z)%bool then Err ValueError
  else if (N <=? 2)%Z then Err NotFinite
  else Ok (reflect (fill 0 (L + 1) L (ngon_entry mass H a phic N) (zeros L))).

(* qlm.py:500-556 tetrahedron *)
Definition tetra_entry (mass x y z : R) (l m : Z) : C :=
  zsum 0 ((l - m) / 2 + 1) (fun k =>
    let m2k := (m + 2 * k)%Z in
    let psum := zsum 0 (m + k + 1) (fun p => zsum 0 (k + 1) (fun j => let pj := (p + j)%Z in
      let gampj := (gammaln (m2k - pj + 1) + gammaln (pj + 1) - (gammaln (j + 1) + gammaln (k - j + 1))
                    - (gammaln (p + 1) + gammaln (m + k - p + 1)))%R in
      cpow Ci (Z.to_nat pj) * sgnC p * RtoC (pw y pj * pw x (m2k - pj)) * RtoC (exp gampj))) in
    sgnC (m + k) * RtoC (pw z (l - m2k) / pw 2 m2k) * psum)
  * RtoC (6 * factor mass * sqrt (2 * IZR l + 1) / exp (gammaln (l + 4)) * lmfac l m).
Definition tetrahedron (L : Z) (mass x y z : R) : res marr :=
  if (rle x 0 || rle y 0 || rle z 0)%bool then Err ValueError
  else Ok (reflect (fill 0 (L + 1) L (tetra_entry mass x y z) (zeros L))).

(* qlm.py:559-616 tetrahedron2 *)
Definition tetra2_entry (mass x y1 y2 z : R) (l m : Z) : C :=
  zsum 0 ((l - m) / 2 + 1) (fun k =>
    let m2k := (m + 2 * k)%Z in
    let psum := zsum 0 (m + k + 1) (fun p => zsum 0 (k + 1) (fun j => let pj := (p + j)%Z in
      let gampj := (gammaln (m2k + 2) - (gammaln (j + 1) + gammaln (k - j + 1))
                    - (gammaln (p + 1) + gammaln (m + k - p + 1)))%R in
      cpow Ci (Z.to_nat pj) * sgnC p * RtoC ((pw y2 (pj + 1) - pw y1 (pj + 1)) * pw x (m2k - pj)) * RtoC (exp gampj / IZR (pj + 1)))) in
    sgnC (m + k) * RtoC (pw z (l - m2k) / pw 2 m2k) * psum)
  * RtoC (6 * factor mass * sqrt (2 * IZR l + 1) / exp (gammaln (l + 4)) / (y2 - y1) * lmfac l m).
Definition tetrahedron2 (L : Z) (mass x y1 y2 z : R) : res marr :=
  if (rle x 0 || req y1 y2 || rle z 0)%bool then Err ValueError
  else Ok (reflect (fill 0 (L + 1) L (tetra2_entry mass x y1 y2 z) (zeros L))).

(* qlm.py:619-680 pyramid; the loop visits even m only, and only terms with p+j even *)
Definition pyramid_entry (mass x y z : R) (l m : Z) : C :=
  if Z.even m
  then zsum 0 ((l - m) / 2 + 1) (fun k =>
    let m2k := (m + 2 * k)%Z in
    let psum := zsum 0 (m + k + 1) (fun p => zsum 0 (k + 1) (fun j => let pj := (p + j)%Z in
      if Z.even pj
      then let gampj := (gammaln (m2k + 2) - (gammaln (j + 1) + gammaln (k - j + 1))
                         - (gammaln (p + 1) + gammaln (m + k - p + 1)))%R in
           (RtoC (pw y pj * pw x (m2k - pj)) + sgnC (m / 2) * RtoC (pw x pj * pw y (m2k - pj)))
           * (cpow Ci (Z.to_nat pj) * sgnC p) * RtoC (exp gampj / IZR (pj + 1))
      else 0)) in
    sgnC (m + k) * RtoC (pw z (l - m2k) / pw 2 m2k) * psum)
  * RtoC (3 * factor mass * sqrt (2 * IZR l + 1) / exp (gammaln (l + 4)) * lmfac l m)
  else 0.
Definition pyramid (L : Z) (mass x y z : R) : res marr :=
  if (rle x 0 || rle y 0 || rle z 0)%bool then Err ValueError
  else Ok (reflect (fill 0 (L + 1) L (pyramid_entry mass x y z) (zeros L))).
