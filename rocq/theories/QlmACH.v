(* Model of /repo/newt/qlmACH.py: closed forms up to degree 5.  LMax >= 0 throughout.
   The let-bound names are the program's variables (q *= e is a rebinding of q); cNM is the cell qlm[N, L+M]. *)
From Verif Require Export Qlm.
Open Scope R_scope.

(* qlm[l, L+m] = v for every (l, m, v) of the table, on a zero array of degree L *)
Definition ach_puts (L : Z) (tab : list (Z * Z * C)) : marr :=
  fold_left (fun q '((l, m), v) => upd q l (L + m)%Z v) tab (zeros L).
(* the common head (L = max(5, LMax)) and tail (reflection, truncation) of every function *)
Definition ach_finish (LMax : Z) (tab : list (Z * Z * C)) : marr :=
  let L := (if LMax <? 5 then 5 else LMax)%Z in
  let q := reflect (ach_puts L tab) in
  if (LMax <? 5)%Z then mkarr LMax (fun i j => at_ q i (L - LMax + j)%Z) else q.

(* qlmACH.py:11-61 rect_prism *)
Definition ach_rect_prism_tab (rho x y z : R) : list (Z * Z * C) :=
  let q00 : R := (rho * x * y * z / sqrt (4 * PI))%R in
  let r2 : R := (x ^ 2 + y ^ 2)%R in
  let d2 : R := (x ^ 2 - y ^ 2)%R in
  let c00 : C := (RtoC q00)%C in
  let c20 : C := (RtoC (- q00 * sqrt 5 * (r2 - 2 * z ^ 2) / 24))%C in
  let c22 : C := (RtoC (q00 * sqrt (5 / 6) * d2 / 8))%C in
  let c40 : C := (RtoC (q00 * (9 * x ^ 4 + 10 * x ^ 2 * y ^ 2 + 9 * y ^ 4 - 40 * r2 * z ^ 2 + 24 * z ^ 4) / 640))%C in
  let c42 : C := (RtoC (- q00 * d2 * (3 * r2 - 10 * z ^ 2) / (64 * sqrt 10)))%C in
  let c44 : C := (RtoC (q00 * sqrt (7 / 10) * (3 * x ^ 4 - 10 * x ^ 2 * y ^ 2 + 3 * y ^ 4) / 128))%C in
  [((0, 0)%Z, c00); ((2, 0)%Z, c20); ((2, 2)%Z, c22); ((4, 0)%Z, c40); ((4, 2)%Z, c42); ((4, 4)%Z, c44)].
Definition ach_rect_prism (LMax : Z) (rho x y z : R) : res marr :=
  if ((rle x 0 || rle y 0 || rle z 0))%bool then Err ValueError
  else Ok (ach_finish LMax (ach_rect_prism_tab rho x y z)).

(* qlmACH.py:64-146 annulus *)
Definition ach_annulus_tab (rho H Ri Ro phic phih : R) : list (Z * Z * C) :=
  let dphi : R := (phih * 2)%R in
  let dr : R := (Ro - Ri)%R in
  let r : R := ((Ro + Ri) / 2)%R in
  let eiphi : C := (cexpi (- phic))%C in
  let sdphih : R := (sin (dphi / 2))%R in
  let sdphi3h : R := (sin (dphi * 3 / 2))%R in
  let c00 : C := (RtoC (rho * H * r * dphi * dr / sqrt (4 * PI)))%C in
  let c11 : C := (RtoC (- rho / (4 * sqrt (6 * PI))) * eiphi)%C in
  let c11 : C := (c11 * RtoC (H * dr * (dr ^ 2 + 12 * r ^ 2) * sdphih))%C in
  let c20 : C := (RtoC (- rho * sqrt (5 / PI) * H * r * dphi * dr * (3 * dr ^ 2 - 2 * H ^ 2 + 12 * r ^ 2)))%C in
  let c20 : C := (c20 / RtoC 48)%C in
  let c22 : C := (RtoC (rho * sqrt (15 / (2 * PI))) * cpow eiphi 2 * RtoC H * RtoC r * RtoC dr)%C in
  let c22 : C := (c22 * RtoC ((dr ^ 2 + 4 * r ^ 2) * sin dphi / 16))%C in
  let c31 : C := (RtoC (rho * sqrt (7 / (3 * PI))) * eiphi * RtoC H * RtoC dr * RtoC sdphih / RtoC 960)%C in
  let c31 : C := (c31 * RtoC (9 * dr ^ 4 - 20 * dr ^ 2 * (H ^ 2 - 18 * r ^ 2) - 240 * r ^ 2 * (H ^ 2 - 3 * r ^ 2)))%C in
  let c33 : C := (RtoC (- rho * sqrt (7 / (5 * PI))) * cpow eiphi 3 * RtoC H * RtoC dr / RtoC 192)%C in
  let c33 : C := (c33 * RtoC ((dr ^ 4 + 40 * dr ^ 2 * r ^ 2 + 80 * r ^ 4) * sdphi3h))%C in
  let c40 : C := (RtoC (3 * rho / sqrt PI * H * r * dphi * dr / 1280))%C in
  let q40 : R := (15 * dr ^ 4 - 40 * dr ^ 2 * (H ^ 2 - 5 * r ^ 2) + 8 * (H ^ 4 - 20 * H ^ 2 * r ^ 2 + 30 * r ^ 4))%R in
  let c40 : C := (c40 * RtoC q40)%C in
  let c42 : C := (RtoC (- rho * sqrt (5 / (2 * PI))) * cpow eiphi 2 * RtoC H * RtoC r * RtoC dr * RtoC (sin dphi) / RtoC 128)%C in
  let c42 : C := (c42 * RtoC (3 * dr ^ 4 - 24 * r ^ 2 * (H ^ 2 - 2 * r ^ 2) + dr ^ 2 * (- 6 * H ^ 2 + 40 * r ^ 2)))%C in
  let c44 : C := (RtoC (rho * sqrt (35 / (2 * PI))) * cpow eiphi 4 * RtoC H * RtoC r * RtoC dr * RtoC (sin (2 * dphi)) / RtoC 512)%C in
  let c44 : C := (c44 * RtoC (3 * dr ^ 4 + 40 * dr ^ 2 * r ^ 2 + 48 * r ^ 4))%C in
  let c51 : C := (RtoC (- rho * sqrt (11 / (30 * PI))) * eiphi * RtoC H * RtoC dr * RtoC sdphih / RtoC 3584)%C in
  let q51 : R := (15 * dr ^ 6 - 84 * dr ^ 4 * (H ^ 2 - 15 * r ^ 2))%R in
  let q51 : R := (q51 + 672 * r ^ 2 * (H ^ 4 - 10 * H ^ 2 * r ^ 2 + 10 * r ^ 4))%R in
  let q51 : R := (q51 + 56 * dr ^ 2 * (H ^ 4 - 60 * H ^ 2 * r ^ 2 + 150 * r ^ 4))%R in
  let c51 : C := (c51 * RtoC q51)%C in
  let c53 : C := (RtoC (rho * sqrt (11 / (35 * PI))) * cpow eiphi 3 * RtoC H * RtoC dr * RtoC sdphi3h / RtoC 9216)%C in
  let q53 : R := (15 * dr ^ 6 - 56 * dr ^ 4 * H ^ 2 + 140 * dr ^ 2 * (9 * dr ^ 2 - 16 * H ^ 2) * r ^ 2)%R in
  let q53 : R := (q53 + (560 * (15 * dr ^ 2 - 8 * H ^ 2) * r ^ 4 + 6720 * r ^ 6))%R in
  let c53 : C := (c53 * RtoC q53)%C in
  let c55 : C := (RtoC (- 3 * rho * sqrt (11 / (7 * PI))) * cpow eiphi 5 * RtoC H * RtoC dr * RtoC (sin (dphi * 5 / 2)))%C in
  let q55 : R := (dr ^ 6 + 84 * dr ^ 4 * r ^ 2 + 560 * dr ^ 2 * r ^ 4 + 448 * r ^ 6)%R in
  let c55 : C := (c55 * RtoC (q55 / 5120))%C in
  [((0, 0)%Z, c00); ((1, 1)%Z, c11); ((2, 0)%Z, c20); ((2, 2)%Z, c22); ((3, 1)%Z, c31); ((3, 3)%Z, c33); 
   ((4, 0)%Z, c40); ((4, 2)%Z, c42); ((4, 4)%Z, c44); ((5, 1)%Z, c51); ((5, 3)%Z, c53); ((5, 5)%Z, c55)].
Definition ach_annulus (LMax : Z) (rho H Ri Ro phic phih : R) : res marr :=
  if ((rle Ro Ri || rle Ro 0 || rle H 0 || rlt PI phih || rle phih 0))%bool then Err ValueError
  else Ok (ach_finish LMax (ach_annulus_tab rho H Ri Ro phic phih)).

(* qlmACH.py:149-225 cone *)
Definition ach_cone_tab (rho h r1 r2 : R) : list (Z * Z * C) :=
  let fac : R := (rho * sqrt PI)%R in
  let c00 : C := (RtoC (fac * h * (r1 ^ 2 + r1 * r2 + r2 ^ 2) / 6))%C in
  let c10 : C := (RtoC (fac * h ^ 2 * (r1 - r2) * (r1 + r2) / (8 * sqrt 3)))%C in
  let q20 : R := (h ^ 2 * (2 * r1 ^ 2 + r1 * r2 + 2 * r2 ^ 2))%R in
  let q20 : R := (q20 - 3 * (r1 ^ 4 + r1 ^ 3 * r2 + r1 ^ 2 * r2 ^ 2 + r1 * r2 ^ 3 + r2 ^ 4))%R in
  let c20 : C := (RtoC (fac * h * q20 / (24 * sqrt 5)))%C in
  let q3 : R := ((r1 ^ 2 - r2 ^ 2) * (h ^ 2 - 2 * (2 * r1 ^ 2 + r1 * r2 + 2 * r2 ^ 2)))%R in
  let c30 : C := (RtoC (fac * h ^ 2 * q3 * sqrt 7 / 160))%C in
  let q4 : R := (h ^ 4 * (3 * r1 ^ 2 + r1 * r2 + 3 * r2 ^ 2))%R in
  let q4 : R := (q4 - 2 * h ^ 2 * (11 * r1 ^ 4 + 5 * r1 ^ 3 * r2 + 3 * r1 ^ 2 * r2 ^ 2 + 5 * r1 * r2 ^ 3 + 11 * r2 ^ 4))%R in
  let q4 : R := (q4 + 10 * (r1 ^ 6 + r1 ^ 5 * r2 + r1 ^ 4 * r2 ^ 2 + r1 ^ 3 * r2 ^ 3))%R in
  let q4 : R := (q4 + 10 * (r2 ^ 6 + r2 ^ 5 * r1 + r2 ^ 4 * r1 ^ 2))%R in
  let c40 : C := (RtoC (fac * 3 * h * q4 / 1120))%C in
  let q5 : R := (h ^ 4 - 4 * h ^ 2 * (3 * r1 ^ 2 + r1 * r2 + 3 * r2 ^ 2))%R in
  let q5 : R := (q5 + 5 * (3 * r1 ^ 4 + 2 * r1 ^ 2 * r2 + 4 * r1 ^ 2 * r2 ^ 2 + 2 * r1 * r2 ^ 3 + 3 * r2 ^ 4))%R in
  let c50 : C := (RtoC (fac * q5 * h ^ 2 * (r1 ^ 2 - r2 ^ 2) * sqrt 11 / 896))%C in
  [((0, 0)%Z, c00); ((1, 0)%Z, c10); ((2, 0)%Z, c20); ((3, 0)%Z, c30); ((4, 0)%Z, c40); ((5, 0)%Z, c50)].
Definition ach_cone (LMax : Z) (rho h r1 r2 : R) : res marr :=
  if ((rle h 0 || (req r1 0 && req r2 0)))%bool then Err ValueError
  else Ok (ach_finish LMax (ach_cone_tab rho h r1 r2)).

(* qlmACH.py:228-289 cone2 *)
Definition ach_cone2_tab (rho h r1 r2 : R) : list (Z * Z * C) :=
  let fac : R := (rho * sqrt PI)%R in
  let c00 : C := (RtoC (fac * h * (r1 ^ 2 + r1 * r2 + r2 ^ 2) / 6))%C in
  let c10 : C := (RtoC (fac * h ^ 2 * (r1 ^ 2 + 2 * r1 * r2 + 3 * r2 ^ 2) / (8 * sqrt 3)))%C in
  let q20 : R := (2 * h ^ 2 * (r1 ^ 2 + 3 * r1 * r2 + 6 * r2 ^ 2))%R in
  let q20 : R := (q20 - 3 * (r1 ^ 4 + 2 * r1 ^ 3 * r2 + 3 * r1 ^ 2 * r2 ^ 2 + r1 * r2 ^ 3 + r2 ^ 4))%R in
  let c20 : C := (RtoC (fac * h * q20 / (24 * sqrt 5)))%C in
  let q3 : R := (2 * h ^ 2 * (r1 ^ 2 + 4 * r1 * r2 + 10 * r2 ^ 2))%R in
  let q3 : R := (q3 - 3 * (r1 ^ 4 + 2 * r1 ^ 3 * r2 + 3 * r1 ^ 2 * r2 ^ 2 + 4 * r1 * r2 ^ 3 + 5 * r2 ^ 4))%R in
  let c30 : C := (RtoC (fac * h ^ 2 * q3 * sqrt 7 / 240))%C in
  let q4 : R := (8 * h ^ 4 * (r1 ^ 2 + 5 * r1 * r2 + 15 * r2 ^ 2))%R in
  let q4 : R := (q4 - 12 * h ^ 2 * (r1 ^ 4 + 3 * r1 ^ 3 * r2 + 6 * r1 ^ 2 * r2 ^ 2 + 10 * r1 * r2 ^ 3 + 15 * r2 ^ 4))%R in
  let q4 : R := (q4 + 15 * (r1 ^ 6 + r1 ^ 5 * r2 + r1 ^ 4 * r2 ^ 2 + r1 ^ 3 * r2 ^ 3 + r1 ^ 2 * r2 ^ 4))%R in
  let q4 : R := (q4 + 15 * (r1 * r2 ^ 5 + r2 ^ 6))%R in
  let c40 : C := (RtoC (fac * q4 * h / 560))%C in
  let q5 : R := (8 * h ^ 4 * (r1 ^ 2 + 6 * r1 * r2 + 21 * r2 ^ 2))%R in
  let q5 : R := (q5 - 12 * h ^ 2 * (r1 ^ 4 + 4 * r1 ^ 3 * r2 + 10 * r1 ^ 2 * r2 ^ 2 + 20 * r1 * r2 ^ 3))%R in
  let q5 : R := (q5 - 12 * h ^ 2 * (35 * r2 ^ 4))%R in
  let q5 : R := (q5 + 15 * (r1 ^ 6 + 2 * r1 ^ 5 * r2 + 3 * r1 ^ 4 * r2 ^ 2 + 4 * r1 ^ 3 * r2 ^ 3))%R in
  let q5 : R := (q5 + 15 * (5 * r1 ^ 2 * r2 ^ 4 + 6 * r1 * r2 ^ 5 + 7 * r2 ^ 6))%R in
  let c50 : C := (RtoC (fac * h ^ 2 * q5 * sqrt 11 / 2688))%C in
  [((0, 0)%Z, c00); ((1, 0)%Z, c10); ((2, 0)%Z, c20); ((3, 0)%Z, c30); ((4, 0)%Z, c40); ((5, 0)%Z, c50)].
Definition ach_cone2 (LMax : Z) (rho h r1 r2 : R) : res marr :=
  if ((rle h 0 || (req r1 0 && req r2 0)))%bool then Err ValueError
  else Ok (ach_finish LMax (ach_cone2_tab rho h r1 r2)).

(* qlmACH.py:292-374 tri_prism *)
Definition ach_tri_prism_tab (rho h d y1 y2 : R) : list (Z * Z * C) :=
  let y2p : R := (y1 ^ 2 + y1 * y2 + y2 ^ 2)%R in
  let y4p : R := (y1 ^ 4 + y1 ^ 3 * y2 + y1 ^ 2 * y2 ^ 2 + y1 * y2 ^ 3 + y2 ^ 4)%R in
  let y5p : R := (y1 ^ 5 + y1 ^ 4 * y2 + y1 ^ 3 * y2 ^ 2 + y1 ^ 2 * y2 ^ 3 + y1 * y2 ^ 4 + y2 ^ 5)%R in
  let q00 : R := (rho * h * Rabs (d * (y1 - y2)) / (4 * sqrt PI))%R in
  let c00 : C := (RtoC q00)%C in
  let c11 : C := (RtoC q00 * (RtoC (- 2 * d) + Ci * RtoC (y1 + y2)) / RtoC (sqrt 6))%C in
  let c20 : C := (RtoC (- q00 * sqrt 5 * (3 * d ^ 2 - h ^ 2 + y2p) / 12))%C in
  let q22 : C := (RtoC (3 * d ^ 2 - y2p) - RtoC 3 * Ci * RtoC d * RtoC (y1 + y2))%C in
  let c22 : C := (RtoC q00 * q22 * RtoC (sqrt (5 / 6)) / RtoC 4)%C in
  let q31 : C := (RtoC (36 * d ^ 3) - RtoC 18 * Ci * RtoC (d ^ 2) * RtoC (y1 + y2) + Ci * RtoC (y1 + y2) * RtoC (10 * h ^ 2 - 9 * (y1 ^ 2 + y2 ^ 2)))%C in
  let q31 : C := (q31 - RtoC (4 * d * (5 * h ^ 2 - 3 * y2p)))%C in
  let c31 : C := (RtoC q00 * q31 * RtoC (sqrt (7 / 3)) / RtoC 120)%C in
  let q33 : C := (((RtoC 1 + Ci) * RtoC d + RtoC y1 - Ci * RtoC y2) * ((RtoC 1 + Ci) * RtoC d - Ci * RtoC y1 + RtoC y2) * (RtoC 2 * Ci * RtoC d + RtoC y1 + RtoC y2))%C in
  let c33 : C := (RtoC q00 * q33 * RtoC (sqrt (7 / 5)) / RtoC 8)%C in
  let q40 : R := (30 * d ^ 4 + 3 * h ^ 4 - 10 * h ^ 2 * y2p)%R in
  let q40 : R := (q40 + 6 * (y1 ^ 4 + y1 ^ 3 * y2 + y1 ^ 2 * y2 ^ 2 + y1 * y2 ^ 3 + y2 ^ 4))%R in
  let q40 : R := (q40 + 10 * d ^ 2 * (- 3 * h ^ 2 + 2 * y2p))%R in
  let c40 : C := (RtoC (q00 * q40 / 80))%C in
  let q42 : C := (RtoC (20 * d ^ 4 - 15 * d ^ 2 * h ^ 2) - RtoC 20 * Ci * RtoC (d ^ 3) * RtoC (y1 + y2))%C in
  let q42 : C := (q42 + (RtoC (5 * h ^ 2 * y2p) + RtoC 5 * Ci * RtoC d * RtoC (y1 + y2) * RtoC (3 * h ^ 2 - 2 * (y1 ^ 2 + y2 ^ 2)) - RtoC (4 * y4p)))%C in
  let c42 : C := (RtoC (- q00) * q42 / RtoC (16 * sqrt 10))%C in
  let q44 : R := (5 * d ^ 4 + y1 ^ 4 + y1 ^ 3 * y2 + y1 ^ 2 * y2 ^ 2 + y1 * y2 ^ 3 + y2 ^ 4)%R in
  let q44 : C := (RtoC q44 + (- (RtoC 10 * Ci) * RtoC (d ^ 3) * RtoC (y1 + y2) + RtoC 5 * Ci * RtoC d * RtoC (y1 + y2) * RtoC (y1 ^ 2 + y2 ^ 2)))%C in
  let q44 : C := (q44 - RtoC (10 * d ^ 2 * y2p))%C in
  let c44 : C := (RtoC q00 * q44 * RtoC (sqrt (7 / 10)) / RtoC 8)%C in
  let q51 : C := (RtoC (60 * d ^ 5) - RtoC 30 * Ci * RtoC (d ^ 4) * RtoC (y1 + y2) + RtoC 6 * Ci * RtoC (d ^ 2) * RtoC (y1 + y2) * RtoC (7 * h ^ 2 - 5 * (y1 ^ 2 + y2 ^ 2)))%C in
  let q51 : C := (q51 - RtoC (4 * d ^ 3 * (21 * h ^ 2 - 10 * y2p)))%C in
  let q51 : C := (q51 + RtoC (2 * d * (7 * h ^ 4 - 14 * h ^ 2 * y2p + 6 * y4p)))%C in
  let q51 : C := (q51 - Ci * RtoC (7 * h ^ 4 * (y1 + y2) - 21 * h ^ 2 * (y1 ^ 3 + y1 ^ 2 * y2 + y1 * y2 ^ 2 + y2 ^ 3) + 10 * y5p))%C in
  let c51 : C := (RtoC (- q00) * q51 * RtoC (sqrt (11 / 30)) / RtoC 112)%C in
  let q53 : C := (RtoC (30 * d ^ 5) - RtoC 45 * Ci * RtoC (d ^ 4) * RtoC (y1 + y2) + RtoC 3 * Ci * RtoC (d ^ 2) * RtoC (y1 + y2) * RtoC (14 * h ^ 2 - 5 * (y1 ^ 2 + y2 ^ 2)))%C in
  let q53 : C := (q53 - RtoC (4 * d ^ 3 * (7 * h ^ 2 + 5 * y2p)))%C in
  let q53 : C := (q53 - Ci * RtoC (y1 + y2) * RtoC (7 * h ^ 2 * (y1 ^ 2 + y2 ^ 2) - 5 * (y1 ^ 4 + y1 ^ 2 * y2 ^ 2 + y2 ^ 4)))%C in
  let q53 : C := (q53 + RtoC (d * (28 * h ^ 2 * y2p - 18 * y4p)))%C in
  let c53 : C := (RtoC q00 * q53 * RtoC (sqrt (11 / 35)) / RtoC 48)%C in
  let q55 : C := ((RtoC (- 2 * d) + Ci * RtoC (y1 + y2)) * (RtoC (d ^ 2 - y1 ^ 2 + y1 * y2 - y2 ^ 2) - Ci * RtoC d * RtoC (y1 + y2)))%C in
  let q55 : C := (q55 * (RtoC (3 * d ^ 2 - y2p) - RtoC 3 * Ci * RtoC d * RtoC (y1 + y2)))%C in
  let c55 : C := (RtoC q00 * q55 * RtoC (sqrt (11 / 7)) / RtoC 16)%C in
  [((0, 0)%Z, c00); ((1, 1)%Z, c11); ((2, 0)%Z, c20); ((2, 2)%Z, c22); ((3, 1)%Z, c31); ((3, 3)%Z, c33); 
   ((4, 0)%Z, c40); ((4, 2)%Z, c42); ((4, 4)%Z, c44); ((5, 1)%Z, c51); ((5, 3)%Z, c53); ((5, 5)%Z, c55)].
Definition ach_tri_prism (LMax : Z) (rho h d y1 y2 : R) : res marr :=
  if ((rle h 0 || req d 0 || req y1 y2))%bool then Err ValueError
  else Ok (ach_finish LMax (ach_tri_prism_tab rho h d y1 y2)).

(* qlmACH.py:377-476 trapezoid *)
Definition ach_trapezoid_tab (rho t w1 w2 h : R) : list (Z * Z * C) :=
  let w : R := ((w1 + w2) / 2)%R in
  let delw : R := ((w1 - w2) / w)%R in
  let q00 : R := (rho * h * t * w / sqrt (4 * PI))%R in
  let c00 : C := (RtoC q00)%C in
  let c11 : C := (RtoC (q00 * h * (delw - 6) / (4 * sqrt 6)))%C in
  let q20 : R := (q00 * (4 * delw * h ^ 2 - delw ^ 2 * w ^ 2 - 4 * (4 * h ^ 2 - 2 * t ^ 2 + w ^ 2)))%R in
  let c20 : C := (RtoC (q20 * sqrt 5 / 96))%C in
  let q22 : R := (- q00 * (4 * delw * h ^ 2 + delw ^ 2 * w ^ 2 - 4 * (4 * h ^ 2 - w ^ 2)))%R in
  let c22 : C := (RtoC (q22 * sqrt (5 / 6) / 32))%C in
  let q31 : R := (3 * delw ^ 3 * w ^ 2 - 30 * delw ^ 2 * w ^ 2 - 120 * (6 * h ^ 2 - 4 * t ^ 2 + w ^ 2))%R in
  let q31 : R := (q31 + 4 * delw * (54 * h ^ 2 - 20 * t ^ 2 + 15 * w ^ 2))%R in
  let q31 : R := (q31 * (- q00 * sqrt (7 / 3) * h / 3840))%R in
  let c31 : C := (RtoC q31)%C in
  let q33 : R := (- delw ^ 3 * w ^ 2 + 10 * delw ^ 2 * w ^ 2 + 4 * delw * (6 * h ^ 2 - 5 * w ^ 2))%R in
  let q33 : R := (q33 - 40 * (2 * h ^ 2 - w ^ 2))%R in
  let q33 : R := (q33 * (q00 * sqrt (7 / 5) * h / 256))%R in
  let c33 : C := (RtoC q33)%C in
  let q40 : R := (- 24 * delw ^ 3 * w ^ 2 * h ^ 2 + 9 * delw ^ 4 * w ^ 4)%R in
  let q40 : R := (q40 - 32 * delw * h ^ 2 * (24 * h ^ 2 - 20 * t ^ 2 + 15 * w ^ 2))%R in
  let q40 : R := (q40 + 8 * delw ^ 2 * w ^ 2 * (24 * h ^ 2 - 20 * t ^ 2 + 15 * w ^ 2))%R in
  let q40 : R := (q40 + 16 * (144 * h ^ 4 + 24 * t ^ 4 - 40 * t ^ 2 * w ^ 2 + 9 * w ^ 4 - 40 * h ^ 2 * (4 * t ^ 2 - w ^ 2)))%R in
  let q40 : R := (q40 * (q00 / 10240))%R in
  let c40 : C := (RtoC q40)%C in
  let q42 : R := (32 * delw * (8 * h ^ 4 - 5 * h ^ 2 * t ^ 2) + 3 * delw ^ 4 * w ^ 4)%R in
  let q42 : R := (q42 - 40 * delw ^ 2 * w ^ 2 * (t ^ 2 - w ^ 2))%R in
  let q42 : R := (q42 - 16 * (4 * h ^ 2 - w ^ 2) * (12 * h ^ 2 - 10 * t ^ 2 + 3 * w ^ 2))%R in
  let q42 : R := (q42 * (q00 / 1024 / sqrt 10))%R in
  let c42 : C := (RtoC q42)%C in
  let q44 : R := (24 * delw ^ 3 * w ^ 2 * h ^ 2 + 3 * delw ^ 4 * w ^ 4)%R in
  let q44 : R := (q44 - delw * (256 * h ^ 4 - 480 * h ^ 2 * w ^ 2))%R in
  let q44 : R := (q44 - (delw ^ 2 * w ^ 2 * (192 * h ^ 2 - 40 * w ^ 2) + 16 * (48 * h ^ 4 - 40 * h ^ 2 * w ^ 2 + 3 * w ^ 4)))%R in
  let q44 : R := (q44 * (q00 * sqrt (7 / 10) / 2048))%R in
  let c44 : C := (RtoC q44)%C in
  let q51 : R := (3 * delw ^ 5 * w ^ 4 - 42 * delw ^ 4 * w ^ 4)%R in
  let q51 : R := (q51 + 8 * delw ^ 3 * w ^ 2 * (26 * h ^ 2 - 14 * t ^ 2 + 21 * w ^ 2))%R in
  let q51 : R := (q51 - 224 * (80 * h ^ 4 + 24 * t ^ 4 - 20 * t ^ 2 * w ^ 2 + 3 * w ^ 4 - 20 * h ^ 2 * (6 * t ^ 2 - w ^ 2)))%R in
  let q51 : R := (q51 - 112 * delw ^ 2 * w ^ 2 * (14 * h ^ 2 - 5 * (2 * t ^ 2 - w ^ 2)))%R in
  let q51 : R := (q51 + 16 * delw * (400 * h ^ 4 - 252 * h ^ 2 * (2 * t ^ 2 - w ^ 2)))%R in
  let q51 : R := (q51 + 16 * delw * (7 * (8 * t ^ 4 - 20 * t ^ 2 * w ^ 2 + 5 * w ^ 4)))%R in
  let q51 : R := (q51 * (q00 * h * sqrt (11 / 30) / 57344))%R in
  let c51 : C := (RtoC q51)%C in
  let q53 : R := (- 9 * delw ^ 5 * w ^ 4 + 126 * delw ^ 4 * w ^ 4)%R in
  let q53 : R := (q53 + 112 * delw ^ 2 * w ^ 2 * (14 * h ^ 2 - 20 * t ^ 2 + 15 * w ^ 2))%R in
  let q53 : R := (q53 - 8 * delw ^ 3 * w ^ 2 * (26 * h ^ 2 - 28 * t ^ 2 + 63 * w ^ 2))%R in
  let q53 : R := (q53 - 224 * (80 * h ^ 4 + 40 * t ^ 2 * w ^ 2 - 9 * w ^ 4 - 20 * h ^ 2 * (4 * t ^ 2 + w ^ 2)))%R in
  let q53 : R := (q53 + 16 * delw * (400 * h ^ 4 - 84 * h ^ 2 * (4 * t ^ 2 + 3 * w ^ 2) + 35 * (8 * t ^ 2 * w ^ 2 - 3 * w ^ 4)))%R in
  let q53 : R := (q53 * (- q00 * h * sqrt (11 / 35) / 49152))%R in
  let c53 : C := (RtoC q53)%C in
  let q55 : R := (3 * delw ^ 5 * w ^ 4 - 42 * delw ^ 4 * w ^ 4 - delw ^ 3 * w ^ 2 * (208 * h ^ 2 - 168 * w ^ 2))%R in
  let q55 : R := (q55 + 112 * delw ^ 2 * w ^ 2 * (14 * h ^ 2 - 5 * w ^ 2))%R in
  let q55 : R := (q55 + 16 * delw * (80 * h ^ 4 - 252 * h ^ 2 * w ^ 2 + 35 * w ^ 4))%R in
  let q55 : R := (q55 - 224 * (16 * h ^ 4 - 20 * h ^ 2 * w ^ 2 + 3 * w ^ 4))%R in
  let q55 : R := (q55 * (q00 * h * sqrt (11 / 7) / 16384))%R in
  let c55 : C := (RtoC q55)%C in
  [((0, 0)%Z, c00); ((1, 1)%Z, c11); ((2, 0)%Z, c20); ((2, 2)%Z, c22); ((3, 1)%Z, c31); ((3, 3)%Z, c33); 
   ((4, 0)%Z, c40); ((4, 2)%Z, c42); ((4, 4)%Z, c44); ((5, 1)%Z, c51); ((5, 3)%Z, c53); ((5, 5)%Z, c55)].
Definition ach_trapezoid (LMax : Z) (rho t w1 w2 h : R) : res marr :=
  if ((rle h 0 || rle t 0 || rlt w1 0 || rlt w2 0))%bool then Err ValueError
  else if is0 ((w1 + w2) / 2) then Err NotFinite    (* w = 0: delw = 0/0 *)
  else Ok (ach_finish LMax (ach_trapezoid_tab rho t w1 w2 h)).

(* qlmACH.py:479-547 cylindrical_section *)
Definition ach_cylindrical_section_tab (rho t r d : R) : list (Z * Z * C) :=
  let s : R := (sqrt (1 - (d / r) ^ 2))%R in
  let acdr : R := (acos (d / r))%R in
  let r2d2 : R := (r ^ 2 - d ^ 2)%R in
  let c00 : C := (RtoC (rho * t * r * (r * acdr - s * d) / sqrt (4 * PI)))%C in
  let c11 : C := (RtoC (- rho * s * t * r * r2d2 / sqrt (6 * PI)))%C in
  let q20 : R := (t * r * (s * d * (2 * d ^ 2 - t ^ 2 + r ^ 2) + r * (t ^ 2 - 3 * r ^ 2) * acdr))%R in
  let q20 : R := (q20 * (rho * sqrt (5 / PI) / 24))%R in
  let c20 : C := (RtoC q20)%C in
  let c22 : C := (RtoC (rho * sqrt (5 / 6 / PI) * s * d * t * r * r2d2 / 2))%C in
  let c31 : C := (RtoC (rho * s * t * r * r2d2 * (6 * d ^ 2 - 5 * t ^ 2 + 9 * r ^ 2) * sqrt (7 / 3 / PI) / 60))%C in
  let c33 : C := (RtoC (rho * s * t * r * r2d2 * (r ^ 2 - 6 * d ^ 2) * sqrt (7 / 5 / PI) / 12))%C in
  let q40 : R := (- s * d * (16 * d ^ 4 - 20 * d ^ 2 * t ^ 2 + 3 * t ^ 4 + 2 * (4 * d ^ 2 - 5 * t ^ 2) * r ^ 2 + 6 * r ^ 4))%R in
  let q40 : R := (q40 + 3 * r * (t ^ 4 - 10 * t ^ 2 * r ^ 2 + 10 * r ^ 4) * acdr)%R in
  let q40 : R := (q40 * (rho * t * r / sqrt PI / 160))%R in
  let c40 : C := (RtoC q40)%C in
  let q42 : R := (- rho * s * d * t * r * r2d2 * (4 * d ^ 2 - 5 * t ^ 2 + 6 * r ^ 2) / (8 * sqrt (10 * PI)))%R in
  let c42 : C := (RtoC q42)%C in
  let c44 : C := (RtoC (- rho * s * d * t * r * r2d2 * (3 * r ^ 2 - 8 * d ^ 2) * sqrt (7 / (10 * PI)) / 8))%C in
  let q51 : R := (- rho * s * t * r * r2d2 * sqrt (11 / (30 * PI)) / 112)%R in
  let q51 : R := (q51 * (16 * d ^ 4 - 28 * d ^ 2 * t ^ 2 + 7 * t ^ 4 + 6 * (4 * d ^ 2 - 7 * t ^ 2) * r ^ 2 + 30 * r ^ 4))%R in
  let c51 : C := (RtoC q51)%C in
  let q53 : R := (- rho * s * t * r * r2d2 * sqrt (11 / (35 * PI)) / 144)%R in
  let q53 : R := (q53 * (- 48 * d ^ 4 - 14 * t ^ 2 * r ^ 2 + 15 * r ^ 4 + 12 * d ^ 2 * (7 * t ^ 2 - 6 * r ^ 2)))%R in
  let c53 : C := (RtoC q53)%C in
  let q55 : R := (- rho * s * t * r * r2d2 * sqrt (11 / (7 * PI)) / 80)%R in
  let q55 : R := (q55 * (80 * d ^ 4 - 48 * d ^ 2 * r ^ 2 + 3 * r ^ 4))%R in
  let c55 : C := (RtoC q55)%C in
  [((0, 0)%Z, c00); ((1, 1)%Z, c11); ((2, 0)%Z, c20); ((2, 2)%Z, c22); ((3, 1)%Z, c31); ((3, 3)%Z, c33); 
   ((4, 0)%Z, c40); ((4, 2)%Z, c42); ((4, 4)%Z, c44); ((5, 1)%Z, c51); ((5, 3)%Z, c53); ((5, 5)%Z, c55)].
Definition ach_cylindrical_section (LMax : Z) (rho t r d : R) : res marr :=
  if ((rle d 0 || rle r d || rle t 0))%bool then Err ValueError
  else Ok (ach_finish LMax (ach_cylindrical_section_tab rho t r d)).

(* qlmACH.py:550-628 tetrahedron *)
Definition ach_tetrahedron_tab (rho x y z : R) : list (Z * Z * C) :=
  let q00 : R := (rho * x * y * z / (6 * sqrt (4 * PI)))%R in
  let c00 : C := (RtoC q00)%C in
  let c10 : C := (RtoC (q00 * z * sqrt 3 / 4))%C in
  let c11 : C := (RtoC (- q00 * 3) * (RtoC x - Ci * RtoC y) / RtoC (4 * sqrt 6))%C in
  let c20 : C := (RtoC (- q00 * (x ^ 2 + y ^ 2 - 2 * z ^ 2) / (4 * sqrt 5)))%C in
  let c21 : C := (RtoC (- q00 * 3 * z) * (RtoC x - Ci * RtoC y) / RtoC (4 * sqrt 30))%C in
  let c22 : C := (RtoC (q00 * 3) * (RtoC (x ^ 2) - Ci * RtoC x * RtoC y - RtoC (y ^ 2)) / RtoC (4 * sqrt 30))%C in
  let c30 : C := (RtoC (- q00 * z * (x ^ 2 + y ^ 2 - 2 * z ^ 2) * sqrt 7 / 40))%C in
  let c31 : C := (RtoC q00 * (RtoC (3 * x ^ 3) - Ci * RtoC (x ^ 2) * RtoC y + RtoC (x * y ^ 2) - RtoC 3 * Ci * RtoC (y ^ 3) - RtoC 4 * (RtoC x - Ci * RtoC y) * RtoC (z ^ 2)))%C in
  let c31 : C := (c31 * RtoC (sqrt (7 / 3) / 80))%C in
  let c32 : C := (RtoC (q00 * z) * (RtoC (x ^ 2) - Ci * RtoC x * RtoC y - RtoC (y ^ 2)) * RtoC (sqrt (7 / 30)) / RtoC 8)%C in
  let c33 : C := (RtoC (- q00 * (x ^ 2 - y ^ 2)) * (RtoC x - Ci * RtoC y) * RtoC (sqrt (7 / 5)) / RtoC 16)%C in
  let c40 : C := (RtoC (q00 * (3 * x ^ 4 + x ^ 2 * y ^ 2 + 3 * y ^ 4 - 4 * z ^ 2 * (x ^ 2 + y ^ 2) + 8 * z ^ 4) * 3 / 280))%C in
  let q41 : C := (RtoC z * (RtoC (3 * x ^ 3) - Ci * RtoC (x ^ 2) * RtoC y + RtoC (x * y ^ 2) - RtoC 3 * Ci * RtoC (y ^ 3) - RtoC (4 * z ^ 2) * (RtoC x - Ci * RtoC y)))%C in
  let c41 : C := (RtoC q00 * q41 * RtoC 3 / RtoC (112 * sqrt 5))%C in
  let q42 : C := (RtoC (2 * x ^ 4) - Ci * RtoC (x ^ 3) * RtoC y - Ci * RtoC x * RtoC (y ^ 3) - RtoC (2 * y ^ 4) - RtoC 2 * (RtoC (x ^ 2) - Ci * RtoC x * RtoC y - RtoC (y ^ 2)) * RtoC (z ^ 2))%C in
  let c42 : C := (RtoC (- q00) * q42 * RtoC 3 / RtoC (56 * sqrt 10))%C in
  let c43 : C := (RtoC (- q00 * z * (x ^ 2 - y ^ 2)) * (RtoC x - Ci * RtoC y) * RtoC 3 / RtoC (16 * sqrt 35))%C in
  let q44 : C := (RtoC (x ^ 4) - Ci * RtoC (x ^ 3) * RtoC y - RtoC (x ^ 2 * y ^ 2) + Ci * RtoC x * RtoC (y ^ 3) + RtoC (y ^ 4))%C in
  let c44 : C := (RtoC q00 * q44 * RtoC 3 / RtoC (8 * sqrt 70))%C in
  let q50 : R := (z * (3 * x ^ 4 + x ^ 2 * y ^ 2 + 3 * y ^ 4 - 4 * (x ^ 2 + y ^ 2) * z ^ 2 + 8 * z ^ 4))%R in
  let c50 : C := (RtoC (q00 * q50 * sqrt 11 / 448))%C in
  let q51 : C := (RtoC (5 * x ^ 5) - Ci * RtoC (x ^ 4) * RtoC y + RtoC (x ^ 3 * y ^ 2) - Ci * RtoC (x ^ 2) * RtoC (y ^ 3) + RtoC (x * y ^ 4) - RtoC 5 * Ci * RtoC (y ^ 5))%C in
  let q51 : C := (q51 + (RtoC (- 2) * (RtoC x + Ci * RtoC y) * (RtoC (3 * x ^ 2) - RtoC 4 * Ci * RtoC x * RtoC y - RtoC (3 * y ^ 2)) * RtoC (z ^ 2) + RtoC 8 * (RtoC x - Ci * RtoC y) * RtoC (z ^ 4)))%C in
  let c51 : C := (RtoC (- q00) * q51 * RtoC (sqrt (11 / 30)) * RtoC 3 / RtoC 448)%C in
  let q52 : C := (RtoC z * (RtoC (- 2 * x ^ 4) + Ci * RtoC (x ^ 3) * RtoC y + Ci * RtoC x * RtoC (y ^ 3) + RtoC (2 * y ^ 4) + RtoC 2 * (RtoC (x ^ 2) - Ci * RtoC x * RtoC y - RtoC (y ^ 2)) * RtoC (z ^ 2)))%C in
  let c52 : C := (RtoC q00 * q52 * RtoC (sqrt (11 / 210)) * RtoC 3 / RtoC 64)%C in
  let q53 : C := (RtoC (5 * x ^ 5) - RtoC 3 * Ci * RtoC (x ^ 4) * RtoC y - RtoC (x ^ 3 * y ^ 2) - Ci * RtoC (x ^ 2) * RtoC (y ^ 3) - RtoC (3 * x * y ^ 4) + RtoC 5 * Ci * RtoC (y ^ 5))%C in
  let q53 : C := (q53 - RtoC (4 * (x ^ 2 - y ^ 2)) * (RtoC x - Ci * RtoC y) * RtoC (z ^ 2))%C in
  let c53 : C := (RtoC q00 * q53 * RtoC (sqrt (11 / 35)) / RtoC 128)%C in
  let q54 : C := (RtoC z * (RtoC (x ^ 4) - Ci * RtoC (x ^ 3) * RtoC y - RtoC (x ^ 2 * y ^ 2) + Ci * RtoC x * RtoC (y ^ 3) + RtoC (y ^ 4)))%C in
  let c54 : C := (RtoC q00 * q54 * RtoC (sqrt (11 / 70)) * RtoC 3 / RtoC 64)%C in
  let q55 : C := ((RtoC x - Ci * RtoC y) * RtoC ((x ^ 2 - y ^ 2) ^ 2 + x ^ 2 * y ^ 2))%C in
  let c55 : C := (RtoC (- q00) * q55 * RtoC (sqrt (11 / 7)) * RtoC 3 / RtoC 128)%C in
  [((0, 0)%Z, c00); ((1, 0)%Z, c10); ((1, 1)%Z, c11); ((2, 0)%Z, c20); ((2, 1)%Z, c21); ((2, 2)%Z, c22); 
   ((3, 0)%Z, c30); ((3, 1)%Z, c31); ((3, 2)%Z, c32); ((3, 3)%Z, c33); ((4, 0)%Z, c40); ((4, 1)%Z, c41); 
   ((4, 2)%Z, c42); ((4, 3)%Z, c43); ((4, 4)%Z, c44); ((5, 0)%Z, c50); ((5, 1)%Z, c51); ((5, 2)%Z, c52); 
   ((5, 3)%Z, c53); ((5, 4)%Z, c54); ((5, 5)%Z, c55)].
Definition ach_tetrahedron (LMax : Z) (rho x y z : R) : res marr :=
  if ((rle x 0 || rle y 0 || rle z 0))%bool then Err ValueError
  else Ok (ach_finish LMax (ach_tetrahedron_tab rho x y z)).

(* qlmACH.py:631-685 cylhole *)
Definition ach_cylhole_tab (hyp2f1 : R -> R -> R -> R -> R) (rho r Rad : R) : list (Z * Z * C) :=
  let fac : R := (rho * sqrt PI * r * Rad)%R in
  let x : R := ((r / Rad) ^ 2)%R in
  let Fc2 : R := (hyp2f1 (- (1 / 2)) (1 / 2) 2 x)%R in
  let Fc3 : R := (hyp2f1 (- (1 / 2)) (3 / 2) 3 x)%R in
  let Fc4 : R := (hyp2f1 (- (1 / 2)) (5 / 2) 4 x)%R in
  let c00 : C := (RtoC (fac * r * Fc2))%C in
  let c20 : C := (RtoC (- fac * r * sqrt 5 / 6 * ((r ^ 2 - 2 * Rad ^ 2) * Fc2 + r ^ 2 * Fc3)))%C in
  let c22 : C := (RtoC (fac * r * sqrt (15 / 2) * Fc2))%C in
  let q40 : R := ((9 * r ^ 5 - 40 * r ^ 3 * Rad ^ 2 + 24 * r * Rad ^ 4) * Fc2 + (13 * r ^ 5 - 32 * r ^ 3 * Rad ^ 2) * Fc3)%R in
  let q40 : R := (q40 + 16 * r ^ 5 * Fc4)%R in
  let c40 : C := (RtoC (fac / 40 * q40))%C in
  let q42 : R := ((6 * r ^ 2 - 20 * Rad ^ 2) * Fc2 + 2 * (r ^ 2 + 10 * Rad ^ 2) * Fc3 - 13 * r ^ 2 * Fc4)%R in
  let c42 : C := (RtoC (fac * r ^ 3 * q42 / (8 * sqrt 10)))%C in
  let c44 : C := (RtoC (3 * fac * r * sqrt (35 / 2) * Fc2 / 2))%C in
  [((0, 0)%Z, c00); ((2, 0)%Z, c20); ((2, 2)%Z, c22); ((4, 0)%Z, c40); ((4, 2)%Z, c42); ((4, 4)%Z, c44)].
Definition ach_cylhole (hyp2f1 : R -> R -> R -> R -> R) (LMax : Z) (rho r Rad : R) : res marr :=
  if ((rle r 0 || rlt Rad r))%bool then Err ValueError
  else Ok (ach_finish LMax (ach_cylhole_tab hyp2f1 rho r Rad)).

(* qlmACH.py:688-750 cylhole2 *)
Definition ach_cylhole2_tab (ellipe ellipk : R -> R) (rho r Rad : R) : list (Z * Z * C) :=
  let k : R := (r / Rad)%R in
  let Ek : R := (if req k 1 then 1 else ellipe (k ^ 2))%R in
  let Kk : R := (if req k 1 then 0 else ellipk (k ^ 2))%R in
  let c00 : C := (RtoC (rho * 4 / 3 * Rad ^ 3 * ((1 + k ^ 2) * Ek - (1 - k ^ 2) * Kk) / sqrt PI))%C in
  let c20 : C := (RtoC (rho * 2 * Rad ^ 5 / (9 * sqrt (5 * PI))))%C in
  let c20 : C := (c20 * RtoC ((2 + 13 * k ^ 2 - 13 * k ^ 4) * Ek - (1 - k ^ 2) * (2 - k ^ 2) * Kk))%C in
  let q22 : R := ((8 - 13 * k ^ 2 + 3 * k ^ 4) * Ek - (1 - k ^ 2) * (8 - 9 * k ^ 2) * Kk)%R in
  let c22 : C := (RtoC (rho * q22 * Rad ^ 5 * sqrt (2 / (15 * PI)) / 3))%C in
  let q40 : R := ((24 + 440 * k ^ 2 - 1415 * k ^ 4 + 689 * k ^ 6) * Ek)%R in
  let q40 : R := (q40 - (1 - k ^ 2) * (24 + 32 * k ^ 2 - 187 * k ^ 4) * Kk)%R in
  let c40 : C := (RtoC (rho * Rad ^ 7 / (350 * sqrt PI) * q40))%C in
  let q42 : R := ((48 - 198 * k ^ 2 + 173 * k ^ 4 - 85 * k ^ 6) * Ek)%R in
  let q42 : R := (q42 - (1 - k ^ 2) * (48 - 174 * k ^ 2 + 95 * k ^ 4) * Kk)%R in
  let c42 : C := (RtoC (rho * q42 * Rad ^ 7 / (35 * sqrt (10 * PI))))%C in
  let q44 : R := ((128 - 248 * k ^ 2 + 123 * k ^ 4 - 5 * k ^ 6) * Ek)%R in
  let q44 : R := (q44 - (1 - k ^ 2) * (128 - 184 * k ^ 2 + 55 * k ^ 4) * Kk)%R in
  let c44 : C := (RtoC (rho * q44 * Rad ^ 7 / (10 * sqrt (70 * PI))))%C in
  [((0, 0)%Z, c00); ((2, 0)%Z, c20); ((2, 2)%Z, c22); ((4, 0)%Z, c40); ((4, 2)%Z, c42); ((4, 4)%Z, c44)].
Definition ach_cylhole2 (ellipe ellipk : R -> R) (LMax : Z) (rho r Rad : R) : res marr :=
  if ((rle r 0 || rlt Rad r))%bool then Err ValueError
  else Ok (ach_finish LMax (ach_cylhole2_tab ellipe ellipk rho r Rad)).

(* qlmACH.py:753-812 platehole *)
Definition ach_platehole_tab (rho t r theta : R) : list (Z * Z * C) :=
  let s : R := (tan theta)%R in
  let q00 : R := (rho * t * r ^ 2 * sqrt (PI * (1 + s ^ 2)) / 2)%R in
  let c00 : C := (RtoC q00)%C in
  let c20 : C := (RtoC (- q00 * (3 * r ^ 2 * (s ^ 2 + 2) + t ^ 2 * (s ^ 2 - 2)) * sqrt 5 / 24))%C in
  let c21 : C := (RtoC (- q00 * t ^ 2 * s * sqrt (5 / 6) / 4))%C in
  let c22 : C := (RtoC (q00 * s ^ 2 * (3 * r ^ 2 + t ^ 2) * sqrt (5 / 6) / 8))%C in
  let q40 : R := (10 * r ^ 4 * (8 + 8 * s ^ 2 + 3 * s ^ 4) + 10 * t ^ 2 * r ^ 2 * (3 * s ^ 4 - 8))%R in
  let q40 : R := (q40 + t ^ 4 * (8 - 24 * s ^ 2 + 3 * s ^ 4))%R in
  let c40 : C := (RtoC (q00 * q40 * 3 / 640))%C in
  let q41 : R := (t ^ 2 * s * (5 * r ^ 2 * (4 + 3 * s ^ 2) + t ^ 2 * (3 * s ^ 2 - 4)))%R in
  let c41 : C := (RtoC (q00 * q41 * 3 / (64 * sqrt 5)))%C in
  let q42 : R := (s ^ 2 * (10 * r ^ 4 * (s ^ 2 + 2) + 10 * (r * s * t) ^ 2 + t ^ 4 * (s ^ 2 - 6)))%R in
  let c42 : C := (RtoC (- q00 * q42 * 3 / (64 * sqrt 10)))%C in
  let c43 : C := (RtoC (- q00 * s ^ 3 * (t ^ 4 + 5 * r ^ 2 * t ^ 2) * sqrt (7 / 5) * 3 / 64))%C in
  let c44 : C := (RtoC (q00 * s ^ 4 * (10 * r ^ 4 + 10 * r ^ 2 * t ^ 2 + t ^ 4) * sqrt (7 / 10) * 3 / 128))%C in
  [((0, 0)%Z, c00); ((2, 0)%Z, c20); ((2, 1)%Z, c21); ((2, 2)%Z, c22); ((4, 0)%Z, c40); ((4, 1)%Z, c41); 
   ((4, 2)%Z, c42); ((4, 3)%Z, c43); ((4, 4)%Z, c44)].
Definition ach_platehole (LMax : Z) (rho t r theta : R) : res marr :=
  if ((rle r 0 || rle t 0 || rlt (PI / 2) (Rabs theta)))%bool then Err ValueError
  else if is0 (cos theta) then Err NotFinite    (* tan(pi/2): not finite in exact arithmetic *)
  else Ok (ach_finish LMax (ach_platehole_tab rho t r theta)).

(* qlmACH.py:815-876 pyramid *)
Definition ach_pyramid_tab (rho h x y : R) : list (Z * Z * C) :=
  let q00 : R := (rho * h * x * y / (6 * sqrt PI))%R in
  let c00 : C := (RtoC q00)%C in
  let c10 : C := (RtoC (q00 * h * sqrt 3 / 4))%C in
  let c20 : C := (RtoC (q00 * (4 * h ^ 2 - x ^ 2 - y ^ 2) / (8 * sqrt 5)))%C in
  let c22 : C := (RtoC (q00 * (x ^ 2 - y ^ 2) * sqrt (3 / 10) / 8))%C in
  let c30 : C := (RtoC (q00 * h * (4 * h ^ 2 - x ^ 2 - y ^ 2) * sqrt 7 / 80))%C in
  let c32 : C := (RtoC (q00 * h * (x ^ 2 - y ^ 2) * sqrt (7 / 30) / 16))%C in
  let q40 : R := (128 * h ^ 4 + 9 * x ^ 4 + 10 * x ^ 2 * y ^ 2 + 9 * y ^ 4 - 32 * h ^ 2 * (x ^ 2 + y ^ 2))%R in
  let c40 : C := (RtoC (q00 * q40 * 3 / 4480))%C in
  let q42 : R := ((x ^ 2 - y ^ 2) * (8 * h ^ 2 - 3 * (x ^ 2 + y ^ 2)))%R in
  let c42 : C := (RtoC (q00 * q42 * 3 / (448 * sqrt 10)))%C in
  let q44 : R := (3 * x ^ 4 - 10 * x ^ 2 * y ^ 2 + 3 * y ^ 4)%R in
  let c44 : C := (RtoC (q00 * q44 * 3 / (128 * sqrt 70)))%C in
  let q50 : R := (h * (128 * h ^ 4 + 9 * x ^ 4 + 10 * x ^ 2 * y ^ 2 + 9 * y ^ 4 - 32 * h ^ 2 * (x ^ 2 + y ^ 2)))%R in
  let c50 : C := (RtoC (q00 * q50 * sqrt 11 / 7168))%C in
  let q52 : R := (h * (x ^ 2 - y ^ 2) * (8 * h ^ 2 - 3 * (x ^ 2 + y ^ 2)))%R in
  let c52 : C := (RtoC (q00 * q52 * sqrt (33 / 70) / 512))%C in
  let c54 : C := (RtoC (q00 * (3 * x ^ 4 - 10 * x ^ 2 * y ^ 2 + 3 * y ^ 4) * sqrt (11 / 70) * 3 * h / 1024))%C in
  [((0, 0)%Z, c00); ((1, 0)%Z, c10); ((2, 0)%Z, c20); ((2, 2)%Z, c22); ((3, 0)%Z, c30); ((3, 2)%Z, c32); 
   ((4, 0)%Z, c40); ((4, 2)%Z, c42); ((4, 4)%Z, c44); ((5, 0)%Z, c50); ((5, 2)%Z, c52); ((5, 4)%Z, c54)].
Definition ach_pyramid (LMax : Z) (rho h x y : R) : res marr :=
  if ((rle x 0 || rle y 0 || rle h 0))%bool then Err ValueError
  else Ok (ach_finish LMax (ach_pyramid_tab rho h x y)).

