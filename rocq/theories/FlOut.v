(* Model of pg2Multi.Qmomentb (/repo/newt/pg2Multi.py:42-69) and Qmomentsb (:151-189) in rounded arithmetic, over FlMom.v and FlMoms.v:
   each operation rounded, np.sum in any order; overflow, underflow and nan are not modelled. *)
From Coq Require Import Reals List ZArith.
From Coquelicot Require Import Coquelicot.
From Verif Require Export FlMoms.
From Verif Require Import Cplx.
Open Scope R_scope.

Section Float.
Context (A : arith) (lib : library).
(* numpy's complex division by d + 0i, d <> 0, by the larger part *)
Definition fl_cdiv (z : C) (d : R) : C :=
  let rat := rnd A (0 / d) in let scl := rnd A (1 / rnd A (d + rnd A (0 * rat))) in
  (rnd A (rnd A (fst z + rnd A (snd z * rat)) * scl), rnd A (rnd A (snd z - rnd A (fst z * rat)) * scl)).
(* :67 and :180 mass*sph_harm/r**(l+1), the mass as a complex number with imaginary part 0 *)
Definition fl_outer_term (l m : Z) (p : pt) : C :=
  let h := l_sph lib m l (fl_azimuth A lib (pp p)) (l_acos lib (fl_cosine A (pp p))) in
  let w := (rnd A (rnd A (pm p * fst h) - rnd A (0 * snd h)), rnd A (rnd A (pm p * snd h) + rnd A (0 * fst h))) in
  fl_cdiv w (l_pow lib (fl_radius A (pp p)) (Z.to_nat (l + 1))).
(* :65-69 and :175-181 the sum; the arccos of a number beyond 1 is nan *)
Definition fl_outer_sum (l m : Z) (ma : list pt) (q : C) : Prop :=
  (forall p, In p ma -> -1 <= fl_cosine A (pp p) <= 1) /\
  fl_sum A (map (fun p => fst (fl_outer_term l m p)) ma) (fst q) /\ fl_sum A (map (fun p => snd (fl_outer_term l m p)) ma) (snd q).
(* :62-64 zero when a point has radius 0 *)
Definition fl_Qmomentb (l m : Z) (ma : list pt) (q : C) : Prop :=
  (exists p, In p ma /\ fl_radius A (pp p) = 0) /\ q = RtoC 0 \/ (forall p, In p ma -> fl_radius A (pp p) <> 0) /\ fl_outer_sum l m ma q.
(* :172-174 likewise the array; :177-182 the cells of m >= 0; :184-188 the reflection and the halving, as in qmoments *)
Definition fl_Qmomentsb (L : Z) (ma : list pt) (q : Z -> Z -> C) : Prop :=
  (exists p, In p ma /\ fl_radius A (pp p) = 0) /\ (forall n m, q n m = RtoC 0) \/
  (forall p, In p ma -> fl_radius A (pp p) <> 0) /\
  exists s : Z -> Z -> C, (forall n m, (0 <= m <= n)%Z -> (n <= L)%Z -> fl_outer_sum n m ma (s n m)) /\
    forall n m, (Z.abs m <= n)%Z -> (n <= L)%Z -> q n m = fl_reflected A s n m.
End Float.
