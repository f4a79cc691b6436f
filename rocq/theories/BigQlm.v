(* Model of /repo/newt/bigQlm.py: outer moments of a sphere and of an annular sector. LMax >= 0. *)
From Verif Require Export QlmACH.
Open Scope R_scope.

(* bigQlm.py:11-57 sphere *)
Definition big_sphere (LMax : Z) (dens Rad x y z : R) : res marr :=
  let M := dens * (4 * PI * Rad ^ 3) / 3 in
  let d := sqrt (x ^ 2 + y ^ 2 + z ^ 2) in
  if req d 0 then Err ValueError
  else
    let theta := acos (z / d) in
    let phi := pymod (arctan2 y x) (2 * PI) in
    Ok (reflect (fill 0 (LMax + 1) LMax (fun n m =>
          (RtoC M * sph_harm m n phi theta / RtoC (d ^ Z.to_nat (n + 1)))%C) (zeros LMax))).

(* np.sign *)
Definition np_sign (x : R) : R := if rlt 0 x then 1 else if rlt x 0 then -1 else 0.
(* bigQlm.py:98-151: the cells of Qlmb written by annulus before the phase; qNM is the value of
   Qlmb[N, L+M], the names bNM the program's bracketed QNM.  H0 is the argument, H its modulus (line 101).
   (lines 108-109 reuse the name Q22 for the bracket of Q20.) *)
Definition big_annulus_tab (dens H0 r0 r1 phih : R) : list (Z * Z * R) :=
  let d1 := sqrt (H0 ^ 2 + r1 ^ 2) in
  let d0 := sqrt (H0 ^ 2 + r0 ^ 2) in
  let sH := np_sign H0 in
  let H := Rabs H0 in
  let b00 := H * (d1 - d0) + r1 ^ 2 * ln ((H + d1) / r1) - r0 ^ 2 * ln ((H + d0) / r0) in
  let q00 := dens * phih * b00 / (2 * sqrt PI) in
  let b10 := r1 - r0 - d1 + d0 in
  let q10 := sH * dens * sqrt (3 / PI) * phih * b10 in
  let b11 := ln ((r1 + d1) / (r0 + d0)) in
  let q11 := - dens * H * sqrt (3 / (2 * PI)) * b11 * sin phih in
  let b20 := 1 / d1 - 1 / d0 in
  let q20 := dens * sqrt (5 / (4 * PI)) * phih * b20 in
  let b21 := r1 / d1 - r0 / d0 + ln ((r1 * (r0 + d0)) / (r0 * (r1 + d1))) in
  let q21 := - sH * dens * sqrt (5 / (6 * PI)) * b21 * sin phih in
  let b22 := H * (1 / d0 - 1 / d1) - 2 * ln ((r0 * (H + d1)) / (r1 * (H + d0))) in
  let q22 := dens * sqrt (5 / (6 * PI)) / 2 * b22 * sin (2 * phih) / 2 in
  let b30 := 1 / r1 - 1 / r0 - r1 ^ 2 / d1 ^ 3 + r0 ^ 2 / d0 ^ 3 in
  let q30 := sH * dens * sqrt (7 / PI) / 6 * b30 * phih in
  let b31 := (r1 ^ 3 / d1 ^ 3 - r0 ^ 3 / d0 ^ 3) / H in
  let q31 := dens * sqrt (7 / (3 * PI)) / 4 * b31 * sin phih in
  let b32 := 3 * (1 / r1 - 1 / r0) - (3 * r1 ^ 2 + 2 * H ^ 2) / d1 ^ 3 + (3 * r0 ^ 2 + 2 * H ^ 2) / d0 ^ 3 in
  let q32 := - sH * dens * sqrt (7 / (30 * PI)) / 2 * b32 * sin (2 * phih) / 2 in
  let b33 := (8 * H ^ 4 + 12 * H ^ 2 * r1 ^ 2 + 3 * r1 ^ 4) / (r1 * d1 ^ 3)
             - (8 * H ^ 4 + 12 * H ^ 2 * r0 ^ 2 + 3 * r0 ^ 4) / (r0 * d0 ^ 3) in
  let q33 := dens * sqrt (7 / (5 * PI)) / (12 * H) * b33 * sin (3 * phih) / 3 in
  let b40 := H * (r0 ^ 2 / d0 ^ 5 - r1 ^ 2 / d1 ^ 5) in
  let q40 := dens * (3 / (8 * sqrt PI)) * b40 * phih in
  let b41 := 3 / r0 ^ 2 - (8 * H ^ 2 + 2 * r0 ^ 2) * r0 ^ 3 / (H ^ 2 * d0 ^ 5)
             - (3 / r1 ^ 2 - (8 * H ^ 2 + 2 * r1 ^ 2) * r1 ^ 3 / (H ^ 2 * d1 ^ 5)) in
  let q41 := sH * dens / (8 * sqrt (5 * PI)) * b41 * sin phih in
  let b42 := H * ((2 * H ^ 2 + 5 * r1 ^ 2) / d1 ^ 5 - (2 * H ^ 2 + 5 * r0 ^ 2) / d0 ^ 5) in
  let q42 := dens / (4 * sqrt (10 * PI)) * b42 * sin (2 * phih) / 2 in
  let b43 := 5 * (1 / r1 ^ 2 - 1 / r0 ^ 2) + 2 * (r1 ^ 5 / d1 ^ 5 - r0 ^ 5 / d0 ^ 5) / H ^ 2 in
  let q43 := sH * dens * 3 / (8 * sqrt (35 * PI)) * b43 * sin (3 * phih) / 3 in
  let b44 := H * (24 * H ^ 4 + 56 * H ^ 2 * r0 ^ 2 + 35 * r0 ^ 4) / (r0 ^ 2 * d0 ^ 5)
             - H * (24 * H ^ 4 + 56 * H ^ 2 * r1 ^ 2 + 35 * r1 ^ 4) / (r1 ^ 2 * d1 ^ 5) in
  let q44 := dens / (8 * sqrt (70 * PI)) * b44 * sin (4 * phih) / 4 in
  let b50 := 1 / r0 ^ 3 + r0 ^ 2 * (4 * H ^ 2 - r0 ^ 2) / d0 ^ 7
             - (1 / r1 ^ 3 + r1 ^ 2 * (4 * H ^ 2 - r1 ^ 2) / d1 ^ 7) in
  let q50 := sH * dens * sqrt (11 / PI) / 40 * b50 * phih in
  let b51 := r1 ^ 3 * (20 * H ^ 4 + 7 * H ^ 2 * r1 ^ 2 + 2 * r1 ^ 4) / d1 ^ 7
             - r0 ^ 3 * (20 * H ^ 4 + 7 * H ^ 2 * r0 ^ 2 + 2 * r0 ^ 4) / d0 ^ 7 in
  let q51 := dens * sqrt (11 / (30 * PI)) / (24 * H ^ 3) * b51 * sin phih in
  let b52 := 5 / r1 ^ 3 + (4 * H ^ 4 + 14 * H ^ 2 * r1 ^ 2 - 5 * r1 ^ 4) / d1 ^ 7
             - (5 / r0 ^ 3 + (4 * H ^ 4 + 14 * H ^ 2 * r0 ^ 2 - 5 * r0 ^ 4) / d0 ^ 7) in
  let q52 := sH * dens * sqrt (11 / (210 * PI)) / 12 * b52 * sin (2 * phih) / 2 in
  let b53 := r1 ^ 5 * (7 * H ^ 2 + r1 ^ 2) / d1 ^ 7 - r0 ^ 5 * (7 * H ^ 2 + r0 ^ 2) / d0 ^ 7 in
  let q53 := dens * sqrt (11 / (35 * PI)) / (16 * H ^ 3) * b53 * sin (3 * phih) / 3 in
  let b54 := 35 / r0 ^ 3 - (8 * H ^ 4 + 28 * H ^ 2 * r0 ^ 2 + 35 * r0 ^ 4) / d0 ^ 7
             - (35 / r1 ^ 3 - (8 * H ^ 4 + 28 * H ^ 2 * r1 ^ 2 + 35 * r1 ^ 4) / d1 ^ 7) in
  let q54 := sH * dens * sqrt (11 / (70 * PI)) / 72 * b54 * sin (4 * phih) / 4 in
  let b55 := (128 * H ^ 10 + 448 * H ^ 8 * r1 ^ 2 + 560 * H ^ 6 * r1 ^ 4 + 280 * H ^ 4 * r1 ^ 6 + 35 * H ^ 2 * r1 ^ 8 + 10 * r1 ^ 10) / (r1 ^ 3 * d1 ^ 7)
             - (128 * H ^ 10 + 448 * H ^ 8 * r0 ^ 2 + 560 * H ^ 6 * r0 ^ 4 + 280 * H ^ 4 * r0 ^ 6 + 35 * H ^ 2 * r0 ^ 8 + 10 * r0 ^ 10) / (r0 ^ 3 * d0 ^ 7) in
  let q55 := dens * sqrt (11 / (7 * PI)) / (720 * H ^ 3) * b55 * sin (5 * phih) / 5 in
  [((0, 0)%Z, q00); ((1, 0)%Z, q10); ((1, 1)%Z, q11); ((2, 0)%Z, q20); ((2, 1)%Z, q21); ((2, 2)%Z, q22);
   ((3, 0)%Z, q30); ((3, 1)%Z, q31); ((3, 2)%Z, q32); ((3, 3)%Z, q33);
   ((4, 0)%Z, q40); ((4, 1)%Z, q41); ((4, 2)%Z, q42); ((4, 3)%Z, q43); ((4, 4)%Z, q44);
   ((5, 0)%Z, q50); ((5, 1)%Z, q51); ((5, 2)%Z, q52); ((5, 3)%Z, q53); ((5, 4)%Z, q54); ((5, 5)%Z, q55)].
(* bigQlm.py:60-163 annulus; :155 Qlmb *= exp(-1j*ms*phic), applied to the half-filled array.
   r0 = 0 makes Q00 = 0*inf = nan *)
Definition big_annulus (LMax : Z) (dens H r0 r1 phic phih : R) : res marr :=
  if (req H 0 || rlt r1 r0 || rlt r1 0 || rlt r0 0 || rle phih 0 || rlt PI phih)%bool then Err ValueError
  else if req r0 0 then Err NotFinite
  else Ok (ach_finish LMax (map (fun '((l, m), v) => ((l, m), (RtoC v * cexpi (- (IZR m * phic)))%C)) (big_annulus_tab dens H r0 r1 phih))).
