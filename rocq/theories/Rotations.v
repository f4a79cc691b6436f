(* Model of /repo/newt/rotations.py *)
From Verif Require Export MomentSpec ClebschGordan.
Open Scope C_scope.

(* numpy 2-d arrays of (real or complex) floats: the entry [i, j]; real entries
   are embedded in C (simplification: the float -> complex cast is the identity) *)
Definition cmat := Z -> Z -> C.
(* a python list of matrices, element l of shape (2l+1) x (2l+1) *)
Record mats := mkmats { mlen : Z; mget : Z -> cmat }.
(* M[i, a:b] = f  (f y the value written to column y) *)
Definition setrow (M : cmat) (i a b : Z) (f : Z -> C) : cmat :=
  fun x y => if ((x =? i) && (a <=? y) && (y <? b))%bool%Z then f y else M x y.
(* H[n] = M *)
Definition setmat (H : Z -> cmat) (n : Z) (M : cmat) : Z -> cmat := fun k => if (k =? n)%Z then M else H k.

(* rotations.py:155-165 rsign *)
Definition rsign (n : Z) : R := if (n <? 0)%Z then (-1)%R else 1%R.
(* :118-122 dnm *)
Definition dnm (n m : Z) : R := (rsign m * sqrt (IZR ((n - m) * (n + m + 1))) / 2)%R.
(* :125-129 bnm *)
Definition bnm (n m : Z) : R := (rsign m * sqrt (IZR ((n - m - 1) * (n - m)) / IZR ((2 * n + 1) * (2 * n - 1))))%R.
(* :132-139 anm *)
Definition anm (n m : Z) : R := sqrt (IZR ((n + 1 + m) * (n + 1 - m)) / ((2 * IZR n + 1) * (2 * IZR n + 3)))%R.
(* :142-152 rfac *)
Definition rfac (n m : Z) : R := exp (gammaln (n + 1) - gammaln (m + 1)).
(* :168-178 epsm *)
Definition epsm (m : Z) : C := if (-1 <? m)%Z then sgnC m else 1.
(* :110-115 copy_tri *)
Definition copy_tri (M : cmat) : cmat := fun i j => M i j + M j i - (if (i =? j)%Z then M i j else 0).
(* np.rot90(M, 1) and np.rot90(M, -1) for an N x N matrix *)
Definition rot90 (N : Z) (M : cmat) : cmat := fun i j => M j (N - 1 - i)%Z.
Definition rot90m (N : Z) (M : cmat) : cmat := fun i j => M (N - 1 - j)%Z i.

(* :44-48 step 2: Hk[k, k:] = (-1)**ms * sqrt(rfac(k-ms, k+ms)) * lps[ms, k] *)
Definition H_init (cb : R) (k : Z) : cmat :=
  setrow (fun _ _ => 0) k k (2 * k + 1)
    (fun y => let m := (y - k)%Z in sgnC m * RtoC (sqrt (rfac (k - m) (k + m)) * Plm k m cb)).
(* :52-59 step 3: H[n][n+1, n+1:] from row n+1 of H[n+1]; column y has ms = y-n,
   H[n+1][n+1, n+3:] -> y+2, H[n+1][n+1, n+1:-2] -> y, H[n+1][n+1, n+2:-1] -> y+1 *)
Definition H_step3 (cb sb : R) (n : Z) (Hp : cmat) (M : cmat) : cmat :=
  let b0 := bnm (n + 1) 0 in
  setrow M (n + 1) (n + 1) (2 * n + 1)
    (fun y => let m := (y - n)%Z in
      (RtoC (bnm (n + 1) (- m - 1) * (1 - cb) / 2) * Hp (n + 1)%Z (y + 2)%Z
       - RtoC (bnm (n + 1) (m - 1) * (1 + cb) / 2) * Hp (n + 1)%Z y
       - RtoC (anm n m * sb) * Hp (n + 1)%Z (y + 1)%Z) / RtoC b0).
(* :65-77 (mp = 0) and :79-89 step 5: row n-mp-1, columns n+mp+1 .. 2n-1, then column 2n *)
Definition H_step5 (n mp : Z) (M : cmat) : cmat :=
  let fac := RtoC (dnm n (- mp)) in
  let fac2 := RtoC (dnm n (- mp - 1)) in
  let dnmn := RtoC (dnm n (n - 1)) in
  let M1 := setrow M (n - mp - 1) (n + mp + 1) (2 * n)
    (fun y => (fac * M (n - mp + 1)%Z y + RtoC (dnm n (y - n - 1)) * M (n - mp)%Z (y - 1)%Z
               - RtoC (dnm n (y - n)) * M (n - mp)%Z (y + 1)%Z) / fac2) in
  setrow M1 (n - mp - 1) (2 * n) (2 * n + 1)
    (fun _ => (fac * M1 (n - mp + 1)%Z (2 * n)%Z + dnmn * M1 (n - mp)%Z (2 * n - 1)%Z) / fac2).
(* :92-99 step 4: row n+mp+1 *)
Definition H_step4 (n mp : Z) (M : cmat) : cmat :=
  let fac := RtoC (dnm n (mp - 1)) in
  let fac2 := RtoC (dnm n mp) in
  let dnmn := RtoC (dnm n (n - 1)) in
  let M1 := setrow M (n + mp + 1) (n + mp + 1) (2 * n)
    (fun y => (fac * M (n + mp - 1)%Z y - RtoC (dnm n (y - n - 1)) * M (n + mp)%Z (y - 1)%Z
               + RtoC (dnm n (y - n)) * M (n + mp)%Z (y + 1)%Z) / fac2) in
  setrow M1 (n + mp + 1) (2 * n) (2 * n + 1)
    (fun _ => (fac * M1 (n + mp - 1)%Z (2 * n)%Z - dnmn * M1 (n + mp)%Z (2 * n - 1)%Z) / fac2).
(* :51-105 one iteration of the loop over n, on the list H *)
Definition H_iter (cb sb : R) (n : Z) (H : Z -> cmat) : Z -> cmat :=
  let M3 := H_step3 cb sb n (H (n + 1)%Z) (H n) in
  let M5 := H_step5 n 0 M3 in
  let ML := zfor 1 n (fun mp M => H_step4 n mp (H_step5 n mp M)) M5 in
  let MC := copy_tri ML in
  setmat H n (rot90 (2 * n + 1) (copy_tri (rot90m (2 * n + 1) MC))).
(* :11-107 rotate_H_recurs (p >= 0): the python float 1.0 when p = 0, else the list H[:-1] *)
Inductive hres := HFloat (x : R) | HList (ms : mats).
Definition rotate_H_recurs (p : Z) (beta : R) : hres :=
  if (p =? 0)%Z then HFloat 1
  else HList (mkmats (p + 1) (zfor 1 (p + 1) (H_iter (cos beta) (sin beta)) (H_init (cos beta)))).

(* :208-215, 254-261: the angle actually used and the sign table entry (m', m) *)
Definition beta_red (beta : R) : R :=
  let b := pymod beta (2 * PI) in if Rlt_dec PI b then (2 * PI - b)%R else b.
Definition beta_fac (beta : R) (m' m : Z) : C :=
  if Rlt_dec PI (pymod beta (2 * PI)) then sgnC (Z.abs m') * sgnC (Z.abs m) else 1.
(* :181-222 dlmn.  Entry [i,j] of ds[l] is multiplied by efac[LMax-l+i, LMax-l+j], i.e. ms = i-l, j-l.
   For LMax = 0, ds is a float and ds[0] raises TypeError *)
Definition dlmn (LMax : Z) (beta : R) : res mats :=
  match rotate_H_recurs LMax (beta_red beta) with
  | HFloat _ => Err TypeError
  | HList ds => Ok (mkmats (mlen ds) (fun l i j =>
      mget ds l i j * (epsm (i - l) * epsm (- (j - l)) * beta_fac beta (i - l) (j - l))))
  end.
(* :225-272 wignerDl *)
Definition wignerDl (LMax : Z) (alpha beta gamma : R) : res mats :=
  match rotate_H_recurs LMax (beta_red beta) with
  | HFloat _ => Err TypeError
  | HList ds => Ok (mkmats (mlen ds) (fun l i j =>
      mget ds l i j * (epsm (i - l) * epsm (- (j - l))
        * (cexpi (- (IZR (i - l) * alpha)) * cexpi (- (IZR (j - l) * gamma))) * beta_fac beta (i - l) (j - l))))
  end.

(* qNew[k, L-k:L+k+1] = np.dot(D, qlm[k, L-k:L+k+1]), D of shape (2k+1)x(2k+1) *)
Definition put_dot (D : cmat) (q : marr) (k : Z) (qn : marr) : marr :=
  let L := deg q in
  mkarr (deg qn) (setrow (at_ qn) k (L - k) (L + k + 1)
    (fun y => zsum 0 (2 * k + 1) (fun t => D (y - (L - k))%Z t * at_ q k (L - k + t)%Z))).
(* :275-305 rotate_qlm *)
Definition rotate_qlm (q : marr) (alpha beta gamma : R) : res marr :=
  do ds <- wignerDl (deg q + 1) alpha beta gamma;
  Ok (zfor 1 (deg q + 1) (fun k qn => put_dot (mget ds k) q k qn) q).
(* D.T.conj() *)
Definition ctrans (M : cmat) : cmat := fun i j => Cconj (M j i).
Definition ttrans (M : cmat) : cmat := fun i j => M j i.
(* :308-338 rotate_qlm_Ds: on a length mismatch it only prints a message *)
Definition rotate_qlm_Ds (q : marr) (ds : mats) (conj_trans : bool) : marr :=
  if negb (deg q =? mlen ds - 1)%Z then q
  else zfor 1 (deg q + 1) (fun k qn =>
         put_dot (if conj_trans then ctrans (mget ds k) else mget ds k) q k qn) q.
(* :341-372 rotate_qlm_Ds_right *)
Definition rotate_qlm_Ds_right (q : marr) (ds : mats) (conj_trans : bool) : marr :=
  if negb (deg q =? mlen ds - 1)%Z then q
  else zfor 1 (deg q + 1) (fun k qn =>
         put_dot (ttrans (if conj_trans then ctrans (mget ds k) else mget ds k)) q k qn) q.

(* :375-415 Dlmn(l, m, n, alpha, beta, gamma): the (n, m) entry; m, n, l python ints *)
Definition Dlmn (l m n : Z) (alpha beta gamma : R) : C :=
  let kmin := Z.max (m - n) 0 in
  let kmax := Z.min (l + m) (l - n) in
  zsum kmin (kmax + 1) (fun k =>
     RtoC (sgnR k * cos (beta / 2) ^ Z.to_nat (2 * l + m - n - 2 * k) * sin (beta / 2) ^ Z.to_nat (n - m + 2 * k)
           / (zfact k * zfact (l + m - k)) / (zfact (l - n - k) * zfact (n - m + k))))
  * (cexpi (- (alpha * IZR n + gamma * IZR m)) * sgnC (n - m))
  * RtoC (sqrt (zfact (l - m) * zfact (l + m)))
  * RtoC (sqrt (zfact (l - n) * zfact (l + n))).
(* :418-452 Dl *)
Definition Dl (l : Z) (alpha beta gamma : R) : cmat :=
  let Nm := (2 * l + 1)%Z in
  zfor 0 Nm (fun m M => zfor 0 Nm (fun n M =>
     setrow M n m (m + 1) (fun _ => Dlmn l (- l + m) (- l + n) alpha beta gamma)) M) (fun _ _ => 0).
