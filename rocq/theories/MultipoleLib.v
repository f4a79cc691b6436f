(* Model of /repo/newt/multipoleLib.py *)
From Coq Require Import String.
From Verif Require Export TranslationRecurs Rotations.
From Verif Require Import Cplx.
Open Scope C_scope.

(* ---- force_basis, multipoleLib.py:14-64 ---- *)
(* the four arrays ytilC, bX, bY, bZ *)
Record fbst := mkfb { fy : marr; fx_ : marr; fy_ : marr; fz_ : marr }.
(* :34-37 (the sectoral entry [l, L+l]); w = x - 1j*y *)
Definition fb_sect (L l : Z) (x y : R) (s : fbst) : fbst :=
  let w : C := RtoC x - Ci * RtoC y in
  let n2 : C := RtoC (IZR (2 * l)) in
  let yp := at_ (fy s) (l - 1) (L + l - 1) in
  mkfb (upd (fy s) l (L + l) (- (w * yp) / n2))
       (upd (fx_ s) l (L + l) (- (yp + at_ (fx_ s) (l - 1) (L + l - 1) * w) / n2))
       (upd (fy_ s) l (L + l) ((Ci * yp - at_ (fy_ s) (l - 1) (L + l - 1) * w) / n2))
       (upd (fz_ s) l (L + l) (- (at_ (fz_ s) (l - 1) (L + l - 1) * w) / n2)).
(* :38-42 (l = 1) *)
Definition fb_one (L l : Z) (z : R) (s : fbst) : fbst :=
  let l21 : C := RtoC (IZR (2 * l - 1)) in
  let d : C := RtoC (IZR (l ^ 2)) in
  mkfb (upd (fy s) l L (l21 * RtoC z * at_ (fy s) 0 L / d))
       (upd (fx_ s) l L (l21 * RtoC z * at_ (fx_ s) 0 L / d))
       (upd (fy_ s) l L (l21 * RtoC z * at_ (fy_ s) 0 L / d))
       (upd (fz_ s) l L (l21 * (at_ (fy s) 0 L + RtoC z * at_ (fz_ s) 0 L) / d)).
(* :44-53 one pass of the loop over m; the successive in-place updates of one cell are
   written as one value.  The reads of ytilC are of rows l-1 and l-2, not of the row being written *)
Definition fb_tess (L l : Z) (x y z r2 : R) (m : Z) (s : fbst) : fbst :=
  let l21 : C := RtoC (IZR (2 * l - 1)) in
  let d : C := RtoC (IZR (l ^ 2 - m ^ 2)) in
  let y1 := at_ (fy s) (l - 1) (L + m) in
  let y2 := at_ (fy s) (l - 2) (L + m) in
  mkfb (upd (fy s) l (L + m) ((l21 * RtoC z * y1 - RtoC r2 * y2) / d))
       (upd (fx_ s) l (L + m) (l21 * RtoC z * at_ (fx_ s) (l - 1) (L + m) / d
             - (RtoC (2 * x) * y2 + RtoC r2 * at_ (fx_ s) (l - 2) (L + m)) / d))
       (upd (fy_ s) l (L + m) (l21 * RtoC z * at_ (fy_ s) (l - 1) (L + m) / d
             - (RtoC (2 * y) * y2 + RtoC r2 * at_ (fy_ s) (l - 2) (L + m)) / d))
       (upd (fz_ s) l (L + m) (l21 * (y1 + RtoC z * at_ (fz_ s) (l - 1) (L + m)) / d
             - (RtoC (2 * z) * y2 + RtoC r2 * at_ (fz_ s) (l - 2) (L + m)) / d)).
(* :32-53 the body of the loop over l *)
Definition fb_row (L : Z) (x y z r2 : R) (l : Z) (s : fbst) : fbst :=
  let s1 := fb_sect L l x y s in
  if (l =? 1)%Z then fb_one L l z s1
  else zfor 0 l (fun m s => fb_tess L l x y z r2 m s) s1.
(* :14-64 force_basis, L >= 0 *)
Definition force_basis (L : Z) (x y z : R) : res (marr * marr * marr) :=
  if ((is0 x && is0 y) && is0 z)%bool then
    if (L =? 0)%Z then Err IndexError        (* bZ[1, L] on an array with one row *)
    else Ok (reflect (upd (zeros L) 1 (L + 1) (RtoC (- 1 / 2))),
             reflect (upd (zeros L) 1 (L + 1) (Ci / 2)),
             reflect (upd (zeros L) 1 L 1))
  else
    let r2 := (x ^ 2 + y ^ 2 + z ^ 2)%R in
    let s := zfor 1 (L + 1) (fb_row L x y z r2) (mkfb (upd (zeros L) 0 L 1) (zeros L) (zeros L) (zeros L)) in
    Ok (reflect (fx_ s), reflect (fy_ s), reflect (fz_ s)).

(* ---- multipole_force :68-106 and multipole_force_m :108-146 ---- *)
(* :92-101: the coefficient fac2 *)
Definition mf_fac (L : Z) (q Q : marr) (cnst : R) (lo mo l m : Z) : C :=
  let gamlomo := (gammaln (lo + mo + 1) + gammaln (lo - mo + 1))%R in
  let mofac := at_ q lo (L + mo) * RtoC (4 * PI * cnst) in
  let lfac := IZR (2 * l + 1) in
  let lmofac := mofac / RtoC lfac * RtoC (sqrt (lfac / IZR (2 * lo + 1))) in
  let gamsum := (gammaln (l + m + 1) + gammaln (l - m + 1) - gamlomo)%R in
  at_ Q l (L + m) * lmofac * RtoC (sqrt (exp gamsum)).
(* the nested loops; [add lo mo acc v] is the += of the innermost statement *)
Definition mf_loop {A} (L : Z) (q Q : marr) (cnst : R) (bs : marr * marr * marr)
   (add : Z -> C * C * C -> A -> A) (a0 : A) : A :=
  let '(bX, bY, bZ) := bs in
  zfor 0 (L + 1) (fun lo a => zfor (- lo) (lo + 1) (fun mo a =>
    zfor (lo + 1) (L + 1) (fun l a => let lp := (l - lo)%Z in
      zfor (mo - lp) (mo + lp + 1) (fun m a =>
        let fac2 := mf_fac L q Q cnst lo mo l m in
        add mo (fac2 * at_ bX (l - lo) (L + m - mo), fac2 * at_ bY (l - lo) (L + m - mo), fac2 * at_ bZ (l - lo) (L + m - mo)) a) a) a) a) a0.
Definition c3zero : C * C * C := (RtoC 0, RtoC 0, RtoC 0).
Definition addC3 (u v : C * C * C) : C * C * C :=
  let '(a, b, c) := u in let '(d, e, f) := v in (a + d, b + e, c + f).
(* :68-106; the arrays must have degree LMax (the docstring's requirement) *)
Definition multipole_force (LMax : Z) (q Q : marr) (x y z cnst : R) : res (C * C * C) :=
  do bs <- force_basis LMax x y z;
  Ok (mf_loop LMax q Q cnst bs (fun mo v f => addC3 f v) c3zero).
(* :108-146: force is a 3 x (2L+1) array; force[i, mo] with mo < 0 is python's index from the end *)
Definition pyidx (n i : Z) : Z := if (i <? 0)%Z then (n + i)%Z else i.
Definition multipole_force_m (LMax : Z) (q Q : marr) (x y z cnst : R) : res (Z -> C * C * C) :=
  do bs <- force_basis LMax x y z;
  Ok (mf_loop LMax q Q cnst bs
       (fun mo v (f : Z -> C * C * C) => let k := pyidx (2 * LMax + 1) mo in
          fun j => if (j =? k)%Z then addC3 (f j) v else f j) (fun _ => c3zero)).

(* ---- torques ---- *)
(* 1-d arrays *)
Record cvec := mkcv { vlen : Z; vat : Z -> C }.
(* numpy broadcasting of a binary operation on 1-d arrays *)
Definition vop (f : C -> C -> C) (a b : cvec) : res cvec :=
  if (vlen a =? vlen b)%Z then Ok (mkcv (vlen a) (fun k => f (vat a k) (vat b k)))
  else if (vlen b =? 1)%Z then Ok (mkcv (vlen a) (fun k => f (vat a k) (vat b 0%Z)))
  else if (vlen a =? 1)%Z then Ok (mkcv (vlen b) (fun k => f (vat a 0%Z) (vat b k)))
  else Err ValueError.
(* numpy broadcasting of the product of two arrays of shapes (d+1)x(2d+1), (d'+1)x(2d'+1):
   compatible when d = d' or when one of them is 1x1 *)
Definition bmul (a b : marr) : res marr :=
  if (deg a =? deg b)%Z then Ok (mkarr (deg a) (fun i j => at_ a i j * at_ b i j))
  else if (deg b =? 0)%Z then Ok (mkarr (deg a) (fun i j => at_ a i j * at_ b 0 0))
  else if (deg a =? 0)%Z then Ok (mkarr (deg b) (fun i j => at_ a 0 0 * at_ b i j))
  else Err ValueError.
(* a *= b *)
Definition imul (a b : marr) : res marr :=
  if (deg a =? deg b)%Z then Ok (mkarr (deg a) (fun i j => at_ a i j * at_ b i j))
  else if (deg b =? 0)%Z then Ok (mkarr (deg a) (fun i j => at_ a i j * at_ b 0 0))
  else Err ValueError.
(* np.outer(1/(2*ls+1), ms) *)
Definition lm_outer (minL : Z) : marr := mkarr minL (fun i j => RtoC (1 / IZR (2 * i + 1) * IZR (j - minL))).
Definition cscal (c : C) (a : marr) : marr := mkarr (deg a) (fun i j => c * at_ a i j).
(* np.sum(nlm, 0): a vector of length 2 deg + 1 *)
Definition colsum (a : marr) : cvec := mkcv (2 * deg a + 1) (fun j => zsum 0 (deg a + 1) (fun l => at_ a l j)).
(* nm[k:] and nm[k::-1] for 0 <= k < len nm *)
Definition from_ (k : Z) (v : cvec) : cvec := mkcv (vlen v - k) (fun i => vat v (k + i)%Z).
Definition back_ (k : Z) (v : cvec) : cvec := mkcv (k + 1) (fun i => vat v (k - i)%Z).
(* :193-195 = :304-306 *)
Definition nc_ns (minL : Z) (nlm : marr) : res (marr * cvec * cvec) :=
  let nm := colsum nlm in
  do nc <- vop Cplus (from_ minL nm) (back_ minL nm);
  do ns <- vop Cminus (from_ minL nm) (back_ minL nm);
  Ok (nlm, nc, ns).
(* :149-197 torque_lm; qlm, Qlm of degree >= 0 *)
Definition torque_lm (q Q : marr) (cnst : R) : res (marr * cvec * cvec) :=
  let minL := Z.min (deg q) (deg Q) in
  do a <- bmul (cscal (RtoC (- 4 * PI * cnst) * Ci) (lm_outer minL)) q;
  do nlm <- bmul a Q;
  nc_ns minL nlm.

(* :200-308 torque *)
Definition torque (q Q : marr) (alpha beta gamma : R) (rvec : vec) (trans_type : string) (cnst : R)
  : res (marr * cvec * cvec) :=
  let minL := Z.min (deg q) (deg Q) in
  let is s := String.eqb trans_type s in
  do DsR <- (if (is "inner-inner" || is "inner-outer")%string%bool
             then wignerDl minL alpha beta gamma else wignerDl minL (- alpha) beta (- gamma));
  let r := vnorm rvec in
  do qQ <-
   (if is "inner-inner"%string then
      do Q0 <- imul Q (lm_outer minL);
      do Q1 <- (if is0 r then Ok (rotate_qlm_Ds_right Q0 DsR false)
        else if on_axis r rvec then
          do rrms <- transl_newt_z_RR minL r;
          do Q1 <- apply_trans_mat_right Q0 rrms false;
          Ok (rotate_qlm_Ds_right Q1 DsR false)
        else
          do Ds <- wignerDl minL (- tphi rvec) (- ttheta rvec) (- tphi rvec);
          do rrms <- transl_newt_z_RR minL r;
          do Q2 <- apply_trans_mat_right (rotate_qlm_Ds_right Q0 Ds true) rrms false;
          Ok (rotate_qlm_Ds_right (rotate_qlm_Ds_right Q2 Ds false) DsR false));
      Ok (q, Q1)
    else if (is "inner-outer" || is "outer-outer")%string%bool then
      let io := is "inner-outer"%string in
      do q0 <- imul q (lm_outer minL);
      do q1 <- (if is0 r then Ok (rotate_qlm_Ds_right q0 DsR false)
        else if on_axis r rvec then
          do sms <- (if io then transl_newt_z_SR minL r else transl_newt_z_SS minL r);
          do q1 <- apply_trans_mat_right q0 sms false;          (* :286: the flag q2Q is not passed *)
          Ok (rotate_qlm_Ds_right q1 DsR false)
        else
          let phi := tphi rvec in
          let theta := ttheta rvec in
          do Ds <- wignerDl minL (- phi) (- theta) (- phi);
          do sms <- (if io then transl_newt_z_SR minL r else transl_newt_z_SS minL r);
          do Ds2 <- (if io then wignerDl minL phi (- theta) phi else Ok Ds);
          do q2 <- apply_trans_mat_right (rotate_qlm_Ds_right q0 Ds2 true) sms io;
          Ok (rotate_qlm_Ds_right (rotate_qlm_Ds_right q2 Ds false) DsR false));
      Ok (q1, Q)
    else Err ValueError);
  let '(qnew, Qnew) := qQ in
  do nlm <- bmul (cscal (RtoC (- 4 * PI * cnst) * Ci) qnew) Qnew;
  nc_ns minL nlm.

(* ---- embed_qlm :311-329: the scalar 0 for a negative degree ---- *)
Inductive emb := EZero | EArr (q : marr).
Definition embed_qlm (q : marr) (LNew : Z) : emb :=
  let LOld := deg q in
  if (LNew <? 0)%Z then EZero
  else if (LNew <? LOld)%Z then EArr (mkarr LNew (fun i j => at_ q i (LOld - LNew + j)))
  else if (LNew =? LOld)%Z then EArr q
  else EArr (mkarr LNew (fun i j =>
     if ((i <? LOld + 1) && (LNew - LOld <=? j) && (j <? LNew + LOld + 1))%bool%Z
     then at_ q i (j - (LNew - LOld)) else 0)).

(* ---- torques_at_angle :332-345, at one angle (numpy evaluates arrays of angles elementwise) ---- *)
Definition torques_at_angle (tc ts : cvec) (angle : R) (outer : bool) : res R :=
  let L := (vlen tc - 1)%Z in
  let sign := if outer then (-1)%R else 1%R in
  if ((vlen tc <=? 0) || (vlen ts <? vlen tc))%bool%Z then Err IndexError
  else
   let sc := (Re (vat tc 0) / 2)%R in
   let ss := (Im (vat ts 0) / 2)%R in
   let s := zfor 1 (L + 1) (fun k '(c, s) =>
     let a := (sign * IZR k * angle)%R in
     (c + Re (vat tc k) * cos a + Im (vat tc k) * sin a,
      s + Im (vat ts k) * sin a + Re (vat ts k) * cos a)%R) (sc, ss) in
   Ok (fst s + snd s)%R.
