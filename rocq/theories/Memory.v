(* Model of how the functions on moment arrays use memory.  Elsewhere arrays are values; here an array is a reference to
   a buffer that may be written in place and seen through more than one reference.  Each function is written out as the
   code has it: what is allocated (np.zeros, np.copy, results of arithmetic), what is written in place, what is returned.
   Simplifications: the matrices (wignerDl, transl_newt_z_RR, _SS, _SR), the tables of spherical harmonics and the short vectors
   nc, ns of torque are values; a temporary that is read once and dropped is not allocated. *)
From Coq Require Import String List.
From Verif Require Export MultipoleLib.
From Verif Require Import Cplx.
Open Scope C_scope.

(* ---- memory ---- *)
(* buffers 0 .. top-1 are allocated *)
Record heap := mkh { top : nat; buf : nat -> marr }.
(* an array object: a buffer, or its left-right mirror image (the view made by np.fliplr) *)
Record ref := mkref { loc : nat; flp : bool }.
Definition view (h : heap) (r : ref) : marr := if flp r then fliplr (buf h (loc r)) else buf h (loc r).
Definition put (h : heap) (r : ref) (q : marr) : heap :=
  mkh (top h) (fun l => if Nat.eqb l (loc r) then (if flp r then fliplr q else q) else buf h l).
(* a computation: the memory it leaves, and its value or exception *)
Definition M (A : Type) : Type := heap -> heap * res A.
Definition ret {A} (a : A) : M A := fun h => (h, Ok a).
Definition lift {A} (x : res A) : M A := fun h => (h, x).
Definition andthen {A B} (m : M A) (k : A -> M B) : M B := fun h => let (h', x) := m h in match x with Ok a => k a h' | Err e => (h', Err e) end.
Notation "'act' x <- e1 ; e2" := (andthen e1 (fun x => e2)) (at level 200, x pattern, e1 at level 100, e2 at level 200).
Definition load (r : ref) : M marr := fun h => (h, Ok (view h r)).
Definition store (r : ref) (q : marr) : M unit := fun h => (put h r q, Ok tt).
(* a new array with the given contents: np.zeros, the result of an expression *)
Definition alloc (q : marr) : M ref := fun h => (mkh (S (top h)) (fun l => if Nat.eqb l (top h) then q else buf h l), Ok (mkref (top h) false)).
(* np.copy(r) *)
Definition np_copy (r : ref) : M ref := act q <- load r; alloc q.
(* np.fliplr(r): no copy *)
Definition np_fliplr (r : ref) : M ref := ret (mkref (loc r) (negb (flp r))).
(* for k in range(a, b): body *)
Definition mfor (a b : Z) (body : Z -> M unit) : M unit := zfor a b (fun k m => act _ <- m; body k) (ret tt).

(* ---- rotations.py ---- *)
(* qNew[k, L-k:L+k+1] = np.dot(D, qlm[k, L-k:L+k+1]) *)
Definition row_dot (D : cmat) (qlm : ref) (k : Z) (qNew : ref) : M unit := act q <- load qlm; act n <- load qNew; store qNew (put_dot D q k n).
(* :275-305 rotate_qlm *)
Definition m_rotate_qlm (qlm : ref) (alpha beta gamma : R) : M ref :=
  act q <- load qlm;
  act qNew <- np_copy qlm;
  act ds <- lift (wignerDl (deg q + 1) alpha beta gamma);
  act _ <- mfor 1 (deg q + 1) (fun k => row_dot (mget ds k) qlm k qNew);
  ret qNew.
(* :308-338 rotate_qlm_Ds *)
Definition m_rotate_qlm_Ds (qlm : ref) (ds : mats) (conj_trans : bool) : M ref :=
  act q <- load qlm;
  act qNew <- np_copy qlm;
  if negb (deg q =? mlen ds - 1)%Z then ret qNew
  else act _ <- mfor 1 (deg q + 1) (fun k => row_dot (if conj_trans then ctrans (mget ds k) else mget ds k) qlm k qNew); ret qNew.
(* :341-372 rotate_qlm_Ds_right *)
Definition m_rotate_qlm_Ds_right (qlm : ref) (ds : mats) (conj_trans : bool) : M ref :=
  act q <- load qlm;
  act qNew <- np_copy qlm;
  if negb (deg q =? mlen ds - 1)%Z then ret qNew
  else act _ <- mfor 1 (deg q + 1) (fun k => row_dot (ttrans (if conj_trans then ctrans (mget ds k) else mget ds k)) qlm k qNew); ret qNew.

(* ---- translationRecurs.py ---- *)
(* qNew[m:, j] = np.dot(E, qlm[m:, j]) *)
Definition col_dot (L : Z) (E : cmat) (qlm : ref) (m j : Z) (qNew : ref) : M unit :=
  act q <- load qlm; act n <- load qNew; store qNew (setcol n m j (fun i => coldot L m E q i j)).
(* :249-278 apply_trans_mat *)
Definition m_apply_trans_mat (qlm : ref) (efms : mats) (q2Q : bool) : M ref :=
  act q <- load qlm;
  let L := deg q in
  if negb (L =? mlen efms - 1)%Z then lift (Err ValueError)
  else
    act qNew <- alloc (zeros L);
    act _ <- col_dot L (mget efms 0) qlm 0 L qNew;
    act _ <- mfor 1 (L + 1) (fun m =>
      act _ <- col_dot L (mget efms m) qlm m (L + m) qNew;
      col_dot L (conjm (mget efms m)) qlm m (L - m) qNew);
    if q2Q then np_fliplr qNew else ret qNew.
(* :281-312 apply_trans_mat_right *)
Definition m_apply_trans_mat_right (qlm : ref) (efms : mats) (q2Q : bool) : M ref :=
  act q <- load qlm;
  let L := deg q in
  if negb (L =? mlen efms - 1)%Z then lift (Err ValueError)
  else
    act qNew <- alloc (zeros L);
    act _ <- col_dot L (ttrans (mget efms 0)) qlm 0 L qNew;
    act _ <- mfor 1 (L + 1) (fun m =>
      act _ <- col_dot L (ttrans (mget efms m)) qlm m (L + m) qNew;
      col_dot L (conjm (ttrans (mget efms m))) qlm m (L - m) qNew);
    if q2Q then np_fliplr qNew else ret qNew.
(* :338-356 translate_qlm *)
Definition m_rec_translate_qlm (qlm : ref) (rvec : vec) : M ref :=
  act q <- load qlm;
  let lmax := deg q in let r := vnorm rvec in
  if is0 r then np_copy qlm
  else
    act rrms <- lift (transl_newt_z_RR lmax r);
    if on_axis r rvec then m_apply_trans_mat qlm rrms false
    else
      act Ds <- lift (wignerDl lmax (- tphi rvec) (- ttheta rvec) (- tphi rvec));
      act qm1r <- m_rotate_qlm_Ds qlm Ds false;
      act qlmp <- m_apply_trans_mat qm1r rrms false;
      m_rotate_qlm_Ds qlmp Ds true.
(* :359-377 translate_Qlmb *)
Definition m_rec_translate_Qlmb (Qlm : ref) (rvec : vec) : M ref :=
  act Q <- load Qlm;
  let lmax := deg Q in let r := vnorm rvec in
  if is0 r then np_copy Qlm
  else
    act ssms <- lift (transl_newt_z_SS lmax r);
    if on_axis r rvec then m_apply_trans_mat Qlm ssms false
    else
      act Ds <- lift (wignerDl lmax (tphi rvec) (- ttheta rvec) (tphi rvec));
      act qm1r <- m_rotate_qlm_Ds Qlm Ds false;
      act Qlmp <- m_apply_trans_mat qm1r ssms false;
      m_rotate_qlm_Ds Qlmp Ds true.
(* :380-402 translate_q2Q *)
Definition m_rec_translate_q2Q (qlm : ref) (rvec : vec) : M ref :=
  act q <- load qlm;
  let lmax := deg q in let r := vnorm rvec in
  if is0 r then np_copy qlm
  else
    act srms <- lift (transl_newt_z_SR lmax r);
    if on_axis r rvec then m_apply_trans_mat qlm srms true
    else
      act Ds <- lift (wignerDl lmax (- tphi rvec) (- ttheta rvec) (- tphi rvec));
      act qm1r <- m_rotate_qlm_Ds qlm Ds false;
      act Qlmp <- m_apply_trans_mat qm1r srms true;
      act Ds2 <- lift (wignerDl lmax (tphi rvec) (- ttheta rvec) (tphi rvec));
      m_rotate_qlm_Ds Qlmp Ds2 true.

(* ---- translations.py ---- *)
(* :52-64, 113-125: row L of the result, entries M >= 0, the inner sums written at once *)
Definition m_row (LMax : Z) (f : marr -> Z -> Z -> C) (qlm : ref) (L : Z) (qLM : ref) : M unit :=
  act q <- load qlm; act n <- load qLM; store qLM (zfor 0 (L + 1) (fun M a => upd a L (LMax + M)%Z (f q L M)) n).
(* :66-70, 127-131: qLM += np.conj(np.fliplr(qLM))*fac; qLM[:, LMax] /= 2.  The right hand side of += is an array of its own *)
Definition mirror (q : marr) : marr := mkarr (deg q) (fun i j => Cconj (at_ q i (2 * deg q - j)%Z) * sgnC (Z.abs (j - deg q))).
Definition plus_arr (a b : marr) : marr := mkarr (deg a) (fun i j => at_ a i j + at_ b i j).
Definition halve (q : marr) : marr := mkarr (deg q) (fun i j => if (j =? deg q)%Z then at_ q i j / RtoC 2 else at_ q i j).
Definition m_reflect (qLM : ref) : M unit :=
  act q <- load qLM; act tmp <- alloc (mirror q);
  act a <- load qLM; act b <- load tmp; act _ <- store qLM (plus_arr a b);
  act c <- load qLM; store qLM (halve c).
(* the terms of the sums :53-64 *)
Definition qlm_term (rP : vec) (q : marr) (L M : Z) : C :=
  let LMax := deg q in
  zsum 0 (L + 1) (fun l =>
    let lP := (L - l)%Z in
    let fac := (sq4 (gammaln (2 * L + 2) - gammaln (2 * lP + 2) - gammaln (2 * l + 2)) * vnorm rP ^ Z.to_nat lP)%R in
    zsum (- l) (l + 1) (fun m =>
      let mP := (M - m)%Z in
      if (Z.abs mP <=? lP)%Z
      then RtoC (fac * cgCoeff lP l mP m L M) * Cconj (ylmS LMax rP lP (LMax + mP)) * at_ q l (LMax + m)
      else 0)).
(* :114-125 *)
Definition Qlmb_term (rP : vec) (Q : marr) (L M : Z) : C :=
  let LMax := deg Q in
  zsum L (LMax + 1) (fun l =>
    let lP := (l - L)%Z in
    let fac := (sq4 (gammaln (2 * l + 1) - gammaln (2 * lP + 2) - gammaln (2 * L + 1)) * vnorm rP ^ Z.to_nat lP)%R in
    zsum (- l) (l + 1) (fun m =>
      let mP := (M - m)%Z in
      if ((Z.abs mP <=? lP) && (lP <=? LMax))%bool%Z
      then RtoC (fac * cgCoeff lP l mP m L M) * ylmS LMax rP lP (LMax + mP) * at_ Q l (LMax + m)
      else 0)).
(* :174-185 *)
Definition q2Q_term (rP : vec) (q : marr) (L M : Z) : C :=
  let LMax := deg q in
  zsum 0 (LMax + 1) (fun lP =>
    let l := (L + lP)%Z in
    let fac := (sq4 (gammaln (2 * l + 1) - gammaln (2 * lP + 2) - gammaln (2 * L + 1)) / vnorm rP ^ Z.to_nat (l + 1))%R in
    zsum (- lP) (lP + 1) (fun mP =>
      let m := (M + mP)%Z in
      if (Z.abs m <=? l)%Z
      then RtoC (fac * cgCoeff lP l (- mP) m L M * sgnR mP) * ylmS (2 * LMax) rP l (2 * LMax + m) * at_ q lP (LMax + mP)
      else 0)).
(* :12-71 translate_qlm; for the zero vector "return qlm" (:36-37), the argument itself *)
Definition m_translate_qlm (qlm : ref) (rP : vec) : M ref :=
  if is0 (vnorm rP) then ret qlm
  else
    act q <- load qlm;
    act qLM <- alloc (zeros (deg q));
    act _ <- mfor 0 (deg q + 1) (fun L => m_row (deg q) (qlm_term rP) qlm L qLM);
    act _ <- m_reflect qLM;
    ret qLM.
(* :74-132 translate_Qlmb; for the zero vector "return Qlm" (:97-98) *)
Definition m_translate_Qlmb (Qlm : ref) (rP : vec) : M ref :=
  if is0 (vnorm rP) then ret Qlm
  else
    act Q <- load Qlm;
    act QLM <- alloc (zeros (deg Q));
    act _ <- mfor 0 (deg Q + 1) (fun L => m_row (deg Q) (Qlmb_term rP) Qlm L QLM);
    act _ <- m_reflect QLM;
    ret QLM.
(* :174-185 one row with M from -L to L *)
Definition m_row_all (LMax : Z) (f : marr -> Z -> Z -> C) (qlm : ref) (L : Z) (QLM : ref) : M unit :=
  act q <- load qlm; act n <- load QLM; store QLM (zfor (- L) (L + 1) (fun M a => upd a L (LMax + M)%Z (f q L M)) n).
(* :135-187 translate_q2Q; the zero vector gives an array of nan *)
Definition m_translate_q2Q (qlm : ref) (rP : vec) : M ref :=
  if is0 (vnorm rP) then lift (Err NotFinite)
  else
    act q <- load qlm;
    act QLM <- alloc (zeros (deg q));
    act _ <- mfor 0 (deg q + 1) (fun L => m_row_all (deg q) (q2Q_term rP) qlm L QLM);
    ret QLM.

(* ---- multipoleLib.py ---- *)
(* :311-329 embed_qlm for LNew >= 0 (for a negative LNew it returns the number 0) *)
Definition m_embed_qlm (qlm : ref) (LNew : Z) : M ref :=
  act q <- load qlm;
  let LOld := deg q in
  if (LNew <? 0)%Z then lift (Err TypeError)
  else if (LNew <? LOld)%Z then
    act qNew <- alloc (zeros LNew);
    act q <- load qlm;
    act _ <- store qNew (mkarr LNew (fun i j => at_ q i (LOld - LNew + j)));
    ret qNew
  else if (LNew =? LOld)%Z then np_copy qlm
  else
    act qNew <- alloc (zeros LNew);
    act q <- load qlm; act n <- load qNew;
    act _ <- store qNew (mkarr LNew (fun i j =>
      if ((i <? LOld + 1) && (LNew - LOld <=? j) && (j <? LNew + LOld + 1))%bool%Z then at_ q i (j - (LNew - LOld)) else at_ n i j));
    ret qNew.
(* Qnew *= np.outer(lfac, ms): in place *)
Definition m_imul (r : ref) (b : marr) : M unit := act a <- load r; act c <- lift (imul a b); store r c.
(* :252-278 of torque, the source moments; and :279-300, the test moments *)
Definition m_torque_source (Qnew : ref) (minL : Z) (DsR : mats) (rvec : vec) : M ref :=
  let r := vnorm rvec in
  act _ <- m_imul Qnew (lm_outer minL);
  if is0 r then m_rotate_qlm_Ds_right Qnew DsR false
  else if on_axis r rvec then
    act rrms <- lift (transl_newt_z_RR minL r);
    act Q1 <- m_apply_trans_mat_right Qnew rrms false;
    m_rotate_qlm_Ds_right Q1 DsR false
  else
    act Ds <- lift (wignerDl minL (- tphi rvec) (- ttheta rvec) (- tphi rvec));
    act rrms <- lift (transl_newt_z_RR minL r);
    act Q1 <- m_rotate_qlm_Ds_right Qnew Ds true;
    act Q2 <- m_apply_trans_mat_right Q1 rrms false;
    act Q3 <- m_rotate_qlm_Ds_right Q2 Ds false;
    m_rotate_qlm_Ds_right Q3 DsR false.
Definition m_torque_test (qnew : ref) (minL : Z) (DsR : mats) (rvec : vec) (io : bool) : M ref :=
  let r := vnorm rvec in
  act _ <- m_imul qnew (lm_outer minL);
  if is0 r then m_rotate_qlm_Ds_right qnew DsR false
  else if on_axis r rvec then
    act sms <- lift (if io then transl_newt_z_SR minL r else transl_newt_z_SS minL r);
    act q1 <- m_apply_trans_mat_right qnew sms false;
    m_rotate_qlm_Ds_right q1 DsR false
  else
    act Ds <- lift (wignerDl minL (- tphi rvec) (- ttheta rvec) (- tphi rvec));
    act sms <- lift (if io then transl_newt_z_SR minL r else transl_newt_z_SS minL r);
    act Ds2 <- lift (if io then wignerDl minL (tphi rvec) (- ttheta rvec) (tphi rvec) else Ok Ds);
    act q1 <- m_rotate_qlm_Ds_right qnew Ds2 true;
    act q2 <- m_apply_trans_mat_right q1 sms io;
    act q3 <- m_rotate_qlm_Ds_right q2 Ds false;
    m_rotate_qlm_Ds_right q3 DsR false.
(* :200-308 torque: nlm and the vectors nc, ns *)
Definition m_torque (qlm Qlm : ref) (alpha beta gamma : R) (rvec : vec) (trans_type : string) (cnst : R) : M (ref * cvec * cvec) :=
  act q <- load qlm; act Q <- load Qlm;
  let minL := Z.min (deg q) (deg Q) in
  let is s := String.eqb trans_type s in
  act DsR <- lift (if (is "inner-inner" || is "inner-outer")%string%bool then wignerDl minL alpha beta gamma else wignerDl minL (- alpha) beta (- gamma));
  act qnew <- np_copy qlm;
  act Qnew <- np_copy Qlm;
  act qQ <-
    (if is "inner-inner"%string then act Q1 <- m_torque_source Qnew minL DsR rvec; ret (qnew, Q1)
     else if (is "inner-outer" || is "outer-outer")%string%bool then act q1 <- m_torque_test qnew minL DsR rvec (is "inner-outer"%string); ret (q1, Qnew)
     else lift (Err ValueError));
  act a <- load (fst qQ); act b <- load (snd qQ);
  act p <- lift (bmul (cscal (RtoC (- 4 * PI * cnst) * Ci) a) b);
  act nlm <- alloc p;
  act c <- load nlm;
  act n <- lift (nc_ns minL c);
  ret (nlm, snd (fst n), snd n).
