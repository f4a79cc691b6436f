(* Textbook specification of the Clebsch-Gordan coefficient (integer spins):
   Racah's closed formula, with the convention 1/n! = 0 for negative n. *)
From Verif Require Export ClebschGordan.
Open Scope R_scope.
Definition invfact (n : Z) : R := if (n <? 0)%Z then 0 else / zfact n.
Definition racah (j1 j2 m1 m2 J : Z) : R :=
  sqrt ((2 * IZR J + 1) * zfact (J + j1 - j2) * zfact (J - j1 + j2) * zfact (j1 + j2 - J) / zfact (j1 + j2 + J + 1))
  * sqrt (zfact (J + (m1 + m2)) * zfact (J - (m1 + m2)) * zfact (j1 - m1) * zfact (j1 + m1) * zfact (j2 - m2) * zfact (j2 + m2))
  * rsum 0 (j1 + j2 - J + 1) (fun k => sgnR k * invfact k * invfact (j1 + j2 - J - k) * invfact (j1 - m1 - k)
      * invfact (j2 + m2 - k) * invfact (J - j2 + m1 + k) * invfact (J - j1 - m2 + k)).
(* quantum numbers that occur together *)
Definition admissible (j1 j2 m1 m2 J M : Z) : Prop :=
  (Z.abs m1 <= j1 /\ Z.abs m2 <= j2 /\ Z.abs M <= J /\ J <= j1 + j2 /\ Z.abs (j1 - j2) <= J /\ M = m1 + m2)%Z.
