(* Specification of the special functions scipy supplies to qlmACH.cylhole and cylhole2 (parameter m = k^2, as in scipy),
   and the solid those functions are about *)
From Coq Require Import Reals.
From Coquelicot Require Import Coquelicot.
From Verif Require Export AchSpec.
Open Scope R_scope.

(* complete elliptic integrals of the second and of the first kind *)
Definition is_ellipe (m E : R) : Prop := is_RInt (fun u => sqrt (1 - m * sin u ^ 2)) 0 (PI / 2) E.
Definition is_ellipk (m K : R) : Prop := is_RInt (fun u => / sqrt (1 - m * sin u ^ 2)) 0 (PI / 2) K.
(* Gauss's hypergeometric series *)
Fixpoint rising (a : R) (n : nat) : R := match n with O => 1 | S k => rising a k * (a + INR k) end.
Definition is_hyp2f1 (a b c x F : R) : Prop :=
  is_series (fun n => rising a n * rising b n / (rising c n * INR (fact n)) * x ^ n) F.

(* common part of the cylinder of radius r about the z axis and that of radius Rad about the y axis *)
Definition crossed_core (r Rad : R) : body := fun f I =>
  is_int3 (- r) r (fun x => (- sqrt (r ^ 2 - x ^ 2))%R) (fun x => sqrt (r ^ 2 - x ^ 2))
    (fun x _ => (- sqrt (Rad ^ 2 - x ^ 2))%R) (fun x _ => sqrt (Rad ^ 2 - x ^ 2)) f I.
(* scipy's functions are the ones they are named after, where the code calls them *)
Definition elliptic_integrals (ellipe ellipk : R -> R) : Prop := forall m, 0 < m < 1 -> is_ellipe m (ellipe m) /\ is_ellipk m (ellipk m).
Definition gauss_series (hyp2f1 : R -> R -> R -> R -> R) : Prop := forall x, 0 < x <= 1 ->
  is_hyp2f1 (- (1 / 2)) (1 / 2) 2 x (hyp2f1 (- (1 / 2)) (1 / 2) 2 x) /\ is_hyp2f1 (- (1 / 2)) (3 / 2) 3 x (hyp2f1 (- (1 / 2)) (3 / 2) 3 x) /\
  is_hyp2f1 (- (1 / 2)) (5 / 2) 4 x (hyp2f1 (- (1 / 2)) (5 / 2) 4 x).
