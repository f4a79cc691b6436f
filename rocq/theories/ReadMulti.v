(* Model of /repo/newt/read_multiFor.py.  The file system is a map from paths to lists of lines; print is ignored. *)
From Verif Require Export PyStr Translations Rotations Qlm QlmACH.
From Verif Require Import Cplx.
From Coq Require Import List.
Import ListNotations.
Open Scope C_scope.

(* the moments of the lines from the tenth on (:42-49 with sc l = 1e-3 (0.01)^l, :86-93 with sc l = 1): row counters l, m *)
Fixpoint read_rows (sc : Z -> R) (LMax : Z) (rows : list string) (l m : Z) (q : marr) : res marr :=
  match rows with
  | [] => Ok q
  | line :: rows =>
      let w := words line in
      do a <- item w 0; do b <- item w 1;
      do lr <- pyfloat a; do li <- pyfloat b;
      if (LMax <? l)%Z then Err IndexError
      else let q := upd q l (LMax + m) ((lr, li) * RtoC (sc l)) in
           let m := (m + 1)%Z in
           if (l <? m)%Z then read_rows sc LMax rows (l + 1) 0 q else read_rows sc LMax rows l m q
  end.
Definition read_moments (sc : Z -> R) (lines : list string) : res marr :=
  do _ <- item lines 0;
  do l1 <- item lines 1; do w <- item (words l1) 0; do LMax <- pyint w;
  if (LMax <? 0)%Z then Err ValueError       (* np.zeros with a negative size *)
  else do q <- read_rows sc LMax (skipn 9 lines) 0 0 (zeros LMax); Ok (reflect q).
Definition cgs (l : Z) : R := (1 / 1000 * pw (1 / 100) l)%R.
Definition files := string -> option (list string).
Definition open_ (fs : files) (ext filename filepath : string) : res (list string) :=
  let filename := if endswith ext filename then filename else (filename ++ ext)%string in
  match fs (filepath ++ filename)%string with Some l => Ok l | None => Err LookupFail end.   (* FileNotFoundError *)
(* read_multiFor.py:17-58 read_gsq *)
Definition read_gsq (fs : files) (filename filepath : string) : res marr :=
  do lines <- open_ fs ".gsq" filename filepath; read_moments cgs lines.
(* read_multiFor.py:61-101 read_gbq *)
Definition read_gbq (fs : files) (filename filepath : string) : res marr :=
  do lines <- open_ fs ".gbq" filename filepath; read_moments (fun _ => 1%R) lines.

Section mpc.
(* qlmN.steinmetz (qlmNum.py), a numerical quadrature, is a parameter: LMax, dens, r, R *)
Variable steinmetz : Z -> R -> R -> R -> res marr.
Definition arr_plus (a b : marr) : marr := mkarr (deg a) (fun i j => at_ a i j + at_ b i j).
Definition arr_minus (a b : marr) : marr := mkarr (deg a) (fun i j => at_ a i j - at_ b i j).
Definition fscale (fac : R) (l : list R) : list R := map (fun v => (v * fac)%R) l.
Definition to_vec (p : list R) : res vec := do x <- item p 0; do y <- item p 1; do z <- item p 2; Ok (x, y, z).
(* float(lines[3+k].split(',')[0])*1000 *)
Definition density (line : string) : res R := do s <- item (fields line) 0; do d <- pyfloat s; Ok (d * 1000)%R.
(* the moments of one created shape: the branches of :146-354 up to the position line.  p: the parameter line, dl: the density line *)
Definition create (L : Z) (fac : R) (shape : string) (p : res string) (dl : res string) : option (res marr) :=
  if (shape =? "cylinder")%string then Some (                                   (* :146-163 *)
    do p <- p; do v <- floats p;
    match v with [Ri; Ro; H; phi0; phi1] =>
      let '(Ri, Ro, H) := (Ri * fac, Ro * fac, H * fac)%R in
      let phic := ((phi1 + phi0) * PI / 180 / 2)%R in
      let phih := ((phi1 - phi0) * PI / 180 / 2)%R in
      do dl <- dl; do dens <- density dl;
      annulus L (dens * phih * H * (Ro ^ 2 - Ri ^ 2)) H Ri Ro phic phih
    | _ => Err ValueError end)
  else if (shape =? "sphere")%string then Some (                                (* :164-178 *)
    do p <- p; do v <- floats p; do r <- item (fscale fac v) 0;
    do dl <- dl; do dens <- density dl;
    Ok (sphere L (dens * 4 / 3 * PI * r ^ 3) r))
  else if (shape =? "cone")%string then Some (                                  (* :179-194; UR is not used *)
    do p <- p; do v <- floats p;
    match fscale fac v with [LR; UR; H] =>
      do dl <- dl; do dens <- density dl;
      cone L (dens * PI * H * LR ^ 2 / 3) H LR 0 PI
    | _ => Err ValueError end)
  else if (shape =? "triangle")%string then Some (                              (* :195-209 *)
    do p <- p; do v <- floats p;
    match fscale fac v with [d; y1; y2; t] =>
      do dl <- dl; do dens <- density dl;
      tri_prism L (dens * t * d * Rabs (y2 - y1) / 2) t d y1 y2
    | _ => Err ValueError end)
  else if (shape =? "trapezoid")%string then Some (                             (* :210-241 *)
    do p <- p; do v <- floats p;
    match fscale fac v with [w1; w2; h; t] =>
      let flip := rlt w2 w1 in
      let '(w3, w4) := if flip then (w2, w1) else (w1, w2) in
      do dl <- dl; do dens <- density dl;
      if is0 (w4 - w3) then Err ZeroDivision else
      let hs := (w3 * h / (w4 - w3))%R in
      let hb := (h + hs)%R in
      do qb <- tri_iso_prism L (dens * t * w4 * hb / 2) t w4 hb 0;
      do qs <- tri_iso_prism L (dens * t * w3 * hs / 2) t w3 hs 0;
      let q := translate_qlm (arr_minus qb qs) (- hs, 0, 0)%R in
      if flip then rotate_qlm (translate_qlm q (- (hb - hs), 0, 0)%R) 0 0 PI else Ok q
    | _ => Err ValueError end)
  else if (shape =? "partcylinder")%string then Some (                          (* :242-260 *)
    do p <- p; do v <- floats p;
    match fscale fac v with [r; d; h] =>
      do dl <- dl; do dens <- density dl;
      if is0 r then Err ZeroDivision else
      if rlt 1 (Rabs (d / r)) then Err NotFinite else           (* arccos: nan *)
      let phih := acos (d / r) in
      do qc <- annulus L (dens * h * phih * r ^ 2) h 0 r 0 phih;
      do qt <- tri_iso_prism2 L (dens * h * d * r * sin phih) h r 0 phih;
      Ok (arr_minus qc qt)
    | _ => Err ValueError end)
  else if (shape =? "tetrahedron")%string then Some (                           (* :261-275 *)
    do p <- p; do v <- floats p;
    match fscale fac v with [x; y; z] =>
      do dl <- dl; do dens <- density dl;
      tetrahedron L (dens * x * y * z / 6) x y z
    | _ => Err ValueError end)
  else if (shape =? "platehole")%string then Some (                             (* :276-294; theta in degrees *)
    do p <- p; do v <- floats p;
    match v with [r; t; theta] =>
      do dl <- dl; do dens <- density dl;
      ach_platehole L dens (t * fac) (r * fac) (theta * (PI / 180))
    | _ => Err ValueError end)
  else if (shape =? "cylhole")%string then Some (                               (* :295-309 *)
    do p <- p; do v <- floats p;
    match fscale fac v with [r; R_] =>
      do dl <- dl; do dens <- density dl;
      do q <- steinmetz L dens r R_; rotate_qlm q (PI / 2) 0 0
    | _ => Err ValueError end)
  else if (shape =? "pyramid")%string then Some (                               (* :310-324 *)
    do p <- p; do v <- floats p;
    match fscale fac v with [x; y; z] =>
      do dl <- dl; do dens <- density dl;
      pyramid L (dens * x * y * z / 3) (x / 2) (y / 2) z
    | _ => Err ValueError end)
  else if (shape =? "rectangle")%string then Some (                             (* :325-339 *)
    do p <- p; do v <- floats p;
    match fscale fac v with [x; y; z] =>
      do dl <- dl; do dens <- density dl;
      rect_prism L (dens * x * y * z) z x y 0
    | _ => Err ValueError end)
  else None.

(* the local variables: total, working, unit factor, name of the last shape (None: not yet bound) *)
Record regs := mkregs { r_tot : marr; r_wrk : marr; r_fac : R; r_shape : option string }.
Inductive next := Continue (k : nat) (s : regs) | Break (s : regs).
Definition bound (s : regs) : res string := match r_shape s with Some x => Ok x | None => Err UnboundLocal end.
(* :342-348: for n in range(nlines-k): look at lines[1+k+1]; returns the new k *)
Fixpoint skip_unknown (lines : list string) (n k : nat) : res nat :=
  match n with
  | O => Ok k
  | S n => do l <- item lines (k + 2);
      if (negb (contains "create" l) && negb (contains "end" l))%bool then skip_unknown lines n (k + 1) else Ok k
  end.
Definition all0 (l : list R) : bool := forallb (fun v => req v 0) l.
(* one pass of the while loop, :140-392 *)
Definition mpc_step (fs : files) (filepath : string) (L : Z) (lines : list string) (k : nat) (s : regs) : res next :=
  do line <- item lines (1 + k);
  let line := before "%" line in
  if contains "create" line then
    do r <- split1 "create" line; do shape <- item (words r) 0;
    match create L (r_fac s) shape (item lines (2 + k)) (item lines (3 + k)) with
    | Some r =>
        do q <- r;
        do pl <- item lines (4 + k); do pos <- floats pl;
        let pos := fscale (r_fac s) pos in
        do look <- (if all0 pos then do l <- item lines (5 + k); Ok (contains "add" l) else Ok false);
        if look then Ok (Continue (k + 3 + 1 + 1) (mkregs (arr_plus (r_tot s) q) q (r_fac s) (Some shape)))
        else do v <- to_vec pos; Ok (Continue (k + 3 + 1) (mkregs (r_tot s) (translate_qlm q v) (r_fac s) (Some shape)))
    | None => do k <- skip_unknown lines (length lines - 1 - k) k; Ok (Continue (k + 1) (mkregs (r_tot s) (r_wrk s) (r_fac s) (Some shape)))
    end
  else if contains "rotate" line then
    do r <- split1 "rotate" line; do v <- floats r; do _ <- bound s;
    do v <- to_vec (fscale (PI / 180) v);
    let '(a, b, c) := v in
    do q <- rotate_qlm (r_wrk s) a b c; Ok (Continue (k + 1) (mkregs (r_tot s) q (r_fac s) (r_shape s)))
  else if contains "translate" line then
    do _ <- bound s; do r <- split1 "translate" line; do v <- floats r;
    do v <- to_vec (fscale (r_fac s) v);
    Ok (Continue (k + 1) (mkregs (r_tot s) (translate_qlm (r_wrk s) v) (r_fac s) (r_shape s)))
  else if contains "add" line then
    do _ <- bound s; Ok (Continue (k + 1) (mkregs (arr_plus (r_tot s) (r_wrk s)) (r_wrk s) (r_fac s) (r_shape s)))
  else if contains "cmin" line then Ok (Continue (k + 1) (mkregs (r_tot s) (r_wrk s) (1 / 100) (r_shape s)))
  else if contains "inchin" line then Ok (Continue (k + 1) (mkregs (r_tot s) (r_wrk s) (254 / 10000) (r_shape s)))
  else if contains "nsteps" line then Ok (Continue (k + 1) s)
  else if contains "load" line then
    do r <- split1 "load " line;
    let fname := strip r in
    do q <- read_gsq fs fname (replace "mpc" "mom" filepath);
    if negb (deg q =? deg (r_wrk s))%Z then Err TypeError
    else Ok (Continue (k + 1) (mkregs (r_tot s) q (r_fac s) (Some fname)))
  else if contains "zeroqlm" line then Ok (Continue (k + 1) (mkregs (mkarr (deg (r_tot s)) (fun i j => at_ (r_tot s) i j * 0)) (r_wrk s) (r_fac s) (r_shape s)))
  else if contains "gettotal" line then Ok (Continue (k + 1) (mkregs (r_tot s) (r_tot s) (r_fac s) (Some "Total"%string)))
  else if contains "puttotal" line then Ok (Continue (k + 1) (mkregs (r_wrk s) (r_wrk s) (r_fac s) (Some "Working"%string)))
  else if contains "end" line then Ok (Break s)
  else Ok (Continue (k + 1) s).
(* while k < nlines; k grows by at least one per pass, so nlines passes are enough (proved: C43_enough_passes) *)
Fixpoint mpc_loop (fs : files) (filepath : string) (L : Z) (lines : list string) (fuel k : nat) (s : regs) : res regs :=
  match fuel with
  | O => Ok s
  | S n => if (k <? length lines - 1)%nat
      then do r <- mpc_step fs filepath L lines k s;
           match r with Continue k s => mpc_loop fs filepath L lines n k s | Break s => Ok s end
      else Ok s
  end.
(* read_multiFor.py:104-393 read_mpc *)
Definition read_mpc (fs : files) (L : Z) (filename filepath : string) : res marr :=
  do lines <- open_ fs ".mpc" filename filepath;
  do _ <- item lines 0;
  if (L <? 0)%Z then Err ValueError else
  do s <- mpc_loop fs filepath L lines (length lines - 1) 0 (mkregs (zeros L) (zeros L) (1 / 100) None);
  Ok (r_tot s).
End mpc.
