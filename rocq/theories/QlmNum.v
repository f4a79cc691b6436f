(* Model of /repo/newt/qlmNum.py and /repo/newt/bigQlmNum.py: moments by numerical triple integration.  LMax >= 0.
   The printing of the error estimates is dropped. *)
From Verif Require Export Qlm.
Open Scope R_scope.

(* scipy.integrate.tplquad(func, a, b, gfun, hfun, qfun, rfun)[0]: an approximation of the integral of
   func(z, y, x) over x from a to b, y from gfun(x) to hfun(x), z from qfun(x,y) to rfun(x,y).  The numerical
   integrator is a parameter of every function below; its accuracy is specified in NumSpec. *)
Definition integrator := (R -> R -> R -> R) -> R -> R -> (R -> R) -> (R -> R) -> (R -> R -> R) -> (R -> R -> R) -> R.

(* exp(gammaln(a+1) + gammaln(b+1) + ...) is the product of factorials *)
(* qlmNum.py:18-19 (fac without its azimuthal phase) *)
Definition num_fac (l m : Z) : R := sgnR m * sqrt ((2 * IZR l + 1) * (zfact (l + m) * zfact (l - m)) / (4 * PI)).
(* qlmNum.py:12-28 cyl_integrand_qlm *)
Definition cyl_integrand_qlm (l m : Z) (z r theta : R) : R :=
  let fac := (RtoC (num_fac l m) * cexpi (- (IZR m * theta)))%C in
  let shi := zsum 0 ((l - m) / 2 + 1) (fun k => let m2k := (m + 2 * k)%Z in
     RtoC (sgnR k * pw r m2k * pw z (l - m2k) / (pw 2 m2k * (zfact (m + k) * zfact k * zfact (l - m2k))))) in
  Re (shi * (fac * RtoC r))%C.
(* qlmNum.py:31-48 cart_integrand_qlm_zyx *)
Definition cart_integrand_qlm_zyx (l m : Z) (z y x : R) : R :=
  let xpy := (RtoC x + Ci * RtoC y)%C in
  let xmy := (RtoC x - Ci * RtoC y)%C in
  let shi := zsum 0 ((l - m) / 2 + 1) (fun k => let m2k := (m + 2 * k)%Z in
     (RtoC (sgnR k) * cpow xpy (Z.to_nat k) * cpow xmy (Z.to_nat (m + k)) * RtoC (pw z (l - m2k))
      / RtoC (pw 2 m2k * (zfact (m + k) * zfact k * zfact (l - m2k))))%C) in
  Re (shi * RtoC (num_fac l m))%C.
(* bigQlmNum.py:13-30 cyl_integrand_Qlmb *)
Definition cyl_integrand_Qlmb (l m : Z) (z r theta : R) : R :=
  let fac := (RtoC (num_fac l m) * cexpi (IZR m * theta) / RtoC (sqrt (r ^ 2 + z ^ 2) ^ Z.to_nat (2 * l + 1)))%C in
  let shi := zsum 0 ((l - m) / 2 + 1) (fun k => let m2k := (m + 2 * k)%Z in
     RtoC (sgnR k * pw r m2k * pw z (l - m2k) / (pw 2 m2k * (zfact (m + k) * zfact k * zfact (l - m2k))))) in
  Re (shi * (fac * RtoC r))%C.

(* the common loop: qlm[l, m+L] = quad; qlm *= dens; fill in the negative orders (qlmNum.py:84-99 and its copies) *)
Definition num_finish (L : Z) (dens : R) (quad : Z -> Z -> R) : marr :=
  reflect (fill 0 (L + 1) L (fun l m => (RtoC dens * RtoC (quad l m))%C) (zeros L)).

Section Numeric.
  Variable tpl : integrator.
  (* qlmNum.py:51-99 cyl_mom *)
  Definition num_cyl_mom (L : Z) (dens phih IR OR h1 h2 : R) : res marr :=
    if (rlt h2 h1 || rlt OR IR || req phih 0 || rle OR 0)%bool then Err ValueError
    else Ok (num_finish L dens (fun l m =>
      tpl (cyl_integrand_qlm l m) (- phih) phih (fun _ => IR) (fun _ => OR) (fun _ _ => h1) (fun _ _ => h2))).
  (* qlmNum.py:102-153 cone_mom; IR = OR makes cone_z divide by zero *)
  Definition num_cone_mom (L : Z) (dens phih IR OR H : R) : res marr :=
    if (rle H 0 || rlt OR IR || req phih 0 || rle OR 0)%bool then Err ValueError
    else if req (OR - IR) 0 then Err ZeroDivision
    else Ok (num_finish L dens (fun l m =>
      tpl (cyl_integrand_qlm l m) (- phih) phih (fun _ => IR) (fun _ => OR) (fun _ _ => 0) (fun _ r => H * (OR - r) / (OR - IR)))).
  (* qlmNum.py:156-219 trap_mom *)
  Definition num_trap_mom (L : Z) (dens phih IR OR h1 h2 : R) : res marr :=
    if (rlt h2 h1 || rlt OR IR || rle phih 0 || rle OR 0)%bool then Err ValueError
    else if rle (PI / 2) phih then Err ValueError
    else Ok (num_finish L dens (fun l m =>
      tpl (cyl_integrand_qlm l m) (- phih) phih (fun th => IR * cos phih / cos th) (fun th => OR * cos phih / cos th)
          (fun _ _ => h1) (fun _ _ => h2))).
  (* qlmNum.py:222-279 steinmetz *)
  Definition num_steinmetz (L : Z) (dens r Rad : R) : res marr :=
    if (rle r 0 || rlt Rad r)%bool then Err ValueError
    else Ok (num_finish L dens (fun l m =>
      tpl (cart_integrand_qlm_zyx l m) (- r) r (fun x => - sqrt (r ^ 2 - x ^ 2)) (fun x => sqrt (r ^ 2 - x ^ 2))
          (fun _ y => - sqrt (Rad ^ 2 - y ^ 2)) (fun _ y => sqrt (Rad ^ 2 - y ^ 2)))).
  (* qlmNum.py:282-344 platehole; cos theta = 0 (theta = -pi/2, ...) makes h infinite *)
  Definition num_platehole (L : Z) (dens t r theta : R) : res marr :=
    if (rle r 0 || rle (PI / 2) theta || rle t 0)%bool then Err ValueError
    else if req (cos theta) 0 then Err NotFinite
    else
      let tanth := tan theta in
      let h := t / cos theta in
      Ok (num_finish L dens (fun l m =>
        tpl (cart_integrand_qlm_zyx l m) (- r) r (fun x => - sqrt (r ^ 2 - x ^ 2)) (fun x => sqrt (r ^ 2 - x ^ 2))
            (fun x _ => x * tanth - h / 2) (fun x _ => x * tanth + h / 2))).
  (* bigQlmNum.py:33-84 annulus *)
  Definition bignum_annulus (L : Z) (dens h1 h2 IR OR phih : R) : res marr :=
    if (rlt h2 h1 || rlt OR IR || rle phih 0 || rle OR 0 || rlt PI phih)%bool then Err ValueError
    else if (rle h1 0 && rle 0 h2 && rle IR 0)%bool then Err ValueError
    else Ok (num_finish L dens (fun l m =>
      tpl (cyl_integrand_Qlmb l m) (- phih) phih (fun _ => IR) (fun _ => OR) (fun _ _ => h1) (fun _ _ => h2))).
  (* bigQlmNum.py:87-140 outer_cone *)
  Definition bignum_cone (L : Z) (dens H IR OR phih : R) : res marr :=
    if (rle H 0 || rlt OR IR || rle phih 0 || rle OR 0 || rlt PI phih)%bool then Err ValueError
    else if req (OR - IR) 0 then Err ZeroDivision
    else Ok (num_finish L dens (fun l m =>
      tpl (cyl_integrand_Qlmb l m) (- phih) phih (fun _ => IR) (fun _ => OR) (fun _ _ => 0) (fun _ r => H * (OR - r) / (OR - IR)))).
  (* bigQlmNum.py:143-206 trapezoid *)
  Definition bignum_trapezoid (L : Z) (dens h1 h2 IR OR phih : R) : res marr :=
    if (rlt h2 h1 || rlt OR IR || rle phih 0 || rle OR 0)%bool then Err ValueError
    else if ((rle h1 0 && rle 0 h2 && rle IR 0) || rle (PI / 2) phih)%bool then Err ValueError
    else Ok (num_finish L dens (fun l m =>
      tpl (cyl_integrand_Qlmb l m) (- phih) phih (fun th => IR * cos phih / cos th) (fun th => OR * cos phih / cos th)
          (fun _ _ => h1) (fun _ _ => h2))).
End Numeric.
