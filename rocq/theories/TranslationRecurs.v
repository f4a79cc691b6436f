(* Model of /repo/newt/translationRecurs.py: the Newtonian part (transl_newt_..., apply_trans_mat..., translate_...).
   The Yukawa recursions transl_yuk_z_SR_recurs, transl_yuk_z_RR_recurs (lines
   13-136) and their helpers get_bnm, get_anm are in Yukawa.v. *)
From Verif Require Export Rotations Translations.
Open Scope C_scope.

(* numpy.sign *)
Definition npsign (x : R) : R := if Rlt_dec 0 x then 1%R else if Rlt_dec x 0 then (-1)%R else 0%R.
(* scipy.linalg.toeplitz(c, r)[i, j]; r[0] is ignored *)
Definition toeplitz (c r : Z -> R) (i j : Z) : R := if (j <=? i)%Z then c (i - j)%Z else r (j - i)%Z.
(* scipy.linalg.hankel(c, r)[i, j] for len(c) = n; r[0] is ignored *)
Definition hankel (n : Z) (c r : Z -> R) (i j : Z) : R := if (i + j <? n)%Z then c (i + j)%Z else r (i + j - (n - 1))%Z.
(* translationRecurs.py:233-238 alphanm, 241-246 betanm *)
Definition alphanm (n m : Z) : R := (sgnR n * sqrt (1 / ((2 * IZR n + 1) * zfact (n - m) * zfact (n + m))))%R.
Definition betanm (n m : Z) : R := sqrt (zfact (n - m) * zfact (n + m) / (2 * IZR n + 1)).
(* :160 cols (= :191 rows): entry lp *)
Definition newt_pows (dr : R) (lp : Z) : R :=
  ((- npsign dr) ^ Z.to_nat lp * exp (IZR lp * ln (Rabs dr) - gammaln (lp + 1)))%R.
(* [cols[0], *np.zeros(LMax)] *)
Definition first_only (c : Z -> R) (k : Z) : R := if (k =? 0)%Z then c 0%Z else 0%R.
(* :139-168 transl_newt_z_RR.  For dr = 0, 0*log(0) is nan: the entry cols[0] is not finite.
   Entry [i, j] of rrms[m] is for degrees m+i, m+j *)
Definition transl_newt_z_RR (LMax : Z) (dr : R) : res mats :=
  if is0 dr then Err NotFinite
  else Ok (mkmats (LMax + 1) (fun m i j =>
    let fac k := alphanm (m + k) m in
    RtoC (toeplitz (newt_pows dr) (first_only (newt_pows dr)) i j * (1 / fac i * fac j)))).
(* :171-199 transl_newt_z_SS *)
Definition transl_newt_z_SS (LMax : Z) (dr : R) : res mats :=
  if is0 dr then Err NotFinite
  else Ok (mkmats (LMax + 1) (fun m i j =>
    let fac k := betanm (m + k) m in
    RtoC (toeplitz (first_only (newt_pows dr)) (newt_pows dr) i j * (1 / fac i * fac j)))).
(* :222 svals *)
Definition svals (dr : R) (lp : Z) : R :=
  (npsign dr ^ Z.to_nat (lp + 1) * exp (gammaln (lp + 1) - (IZR lp + 1) * ln (Rabs dr)))%R.
(* :202-230 transl_newt_z_SR; for dr = 0, 0*inf is nan *)
Definition transl_newt_z_SR (LMax : Z) (dr : R) : res mats :=
  if is0 dr then Err NotFinite
  else Ok (mkmats (LMax + 1) (fun m i j =>
    let faca k := alphanm (m + k) m in
    let facb k := betanm (m + k) m in
    RtoC (hankel (LMax + 1 - m) (fun k => svals dr (2 * m + k)) (fun k => svals dr (LMax + m + k)) i j
          * (1 / facb i * faca j)))).

(* q[m:, j] = np.dot(E, p[m:, j]) on arrays of degree L: row i >= m gets sum_k E[i-m, k] p[m+k, j] *)
Definition coldot (L m : Z) (E : cmat) (p : marr) (i j : Z) : C :=
  zsum 0 (L + 1 - m) (fun k => E (i - m)%Z k * at_ p (m + k)%Z j).
Definition setcol (q : marr) (m j : Z) (f : Z -> C) : marr :=
  mkarr (deg q) (fun a b => if ((m <=? a) && (b =? j))%bool%Z then f a else at_ q a b).
(* np.fliplr *)
Definition fliplr (q : marr) : marr := mkarr (deg q) (fun i j => at_ q i (2 * deg q - j)%Z).
Definition conjm (M : cmat) : cmat := fun i j => Cconj (M i j).
(* :249-278 apply_trans_mat (efms[m] of shape (L+1-m) x (L+1-m)) *)
Definition apply_trans_mat (q : marr) (efms : mats) (q2Q : bool) : res marr :=
  let L := deg q in
  if negb (L =? mlen efms - 1)%Z then Err ValueError
  else
    let q0 := setcol (zeros L) 0 L (fun i => coldot L 0 (mget efms 0) q i L) in
    let qn := zfor 1 (L + 1) (fun m a =>
       setcol (setcol a m (L + m) (fun i => coldot L m (mget efms m) q i (L + m)))
              m (L - m) (fun i => coldot L m (conjm (mget efms m)) q i (L - m))) q0 in
    Ok (if q2Q then fliplr qn else qn).
(* :281-312 apply_trans_mat_right *)
Definition apply_trans_mat_right (q : marr) (efms : mats) (q2Q : bool) : res marr :=
  let L := deg q in
  if negb (L =? mlen efms - 1)%Z then Err ValueError
  else
    let q0 := setcol (zeros L) 0 L (fun i => coldot L 0 (ttrans (mget efms 0)) q i L) in
    let qn := zfor 1 (L + 1) (fun m a =>
       let efmsmT := ttrans (mget efms m) in
       setcol (setcol a m (L + m) (fun i => coldot L m efmsmT q i (L + m)))
              m (L - m) (fun i => coldot L m (conjm efmsmT) q i (L - m))) q0 in
    Ok (if q2Q then fliplr qn else qn).

(* r == rvec[2]; only evaluated for r <> 0 *)
Definition on_axis (r : R) (v : vec) : bool := let '(x, y, z) := v in is0 (r - z).
(* :338-356 translate_qlm; np.copy of the array is the array (aliasing not modelled here) *)
Definition rec_translate_qlm (q : marr) (rvec : vec) : res marr :=
  let lmax := deg q in
  let r := vnorm rvec in
  if is0 r then Ok q
  else
    do rrms <- transl_newt_z_RR lmax r;
    if on_axis r rvec then apply_trans_mat q rrms false
    else
      let phi := tphi rvec in
      let theta := ttheta rvec in
      do Ds <- wignerDl lmax (- phi) (- theta) (- phi);
      do qlmp <- apply_trans_mat (rotate_qlm_Ds q Ds false) rrms false;
      Ok (rotate_qlm_Ds qlmp Ds true).
(* :359-377 translate_Qlmb *)
Definition rec_translate_Qlmb (Q : marr) (rvec : vec) : res marr :=
  let lmax := deg Q in
  let r := vnorm rvec in
  if is0 r then Ok Q
  else
    do ssms <- transl_newt_z_SS lmax r;
    if on_axis r rvec then apply_trans_mat Q ssms false
    else
      let phi := tphi rvec in
      let theta := ttheta rvec in
      do Ds <- wignerDl lmax phi (- theta) phi;
      do Qlmp <- apply_trans_mat (rotate_qlm_Ds Q Ds false) ssms false;
      Ok (rotate_qlm_Ds Qlmp Ds true).
(* :380-402 translate_q2Q *)
Definition rec_translate_q2Q (q : marr) (rvec : vec) : res marr :=
  let lmax := deg q in
  let r := vnorm rvec in
  if is0 r then Ok q
  else
    do srms <- transl_newt_z_SR lmax r;
    if on_axis r rvec then apply_trans_mat q srms true
    else
      let phi := tphi rvec in
      let theta := ttheta rvec in
      do Ds <- wignerDl lmax (- phi) (- theta) (- phi);
      do Qlmp <- apply_trans_mat (rotate_qlm_Ds q Ds false) srms true;
      do Ds2 <- wignerDl lmax phi (- theta) phi;
      Ok (rotate_qlm_Ds Qlmp Ds2 true).
