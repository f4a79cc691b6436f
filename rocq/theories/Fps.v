(* Formal power series over C (proof device: generating functions). *)
From Verif Require Export Sums.
From Coq Require Import FunctionalExtensionality.
Open Scope C_scope.

Definition fps := nat -> C.
Declare Scope fps_scope.
Delimit Scope fps_scope with F.
Bind Scope fps_scope with fps.

Definition fC (c : C) : fps := fun n => match n with O => c | _ => 0 end.
Definition f0 : fps := fun _ => 0.
Definition f1 : fps := fC 1.
Definition fX : fps := fun n => match n with 1%nat => 1 | _ => 0 end.
Definition fadd (f g : fps) : fps := fun n => f n + g n.
Definition fopp (f : fps) : fps := fun n => - f n.
Definition fsub (f g : fps) : fps := fun n => f n - g n.
Definition fmul (f g : fps) : fps := fun n => nsum (S n) (fun i => f i * g (n - i)%nat).
Infix "+" := fadd : fps_scope.
Infix "*" := fmul : fps_scope.
Infix "-" := fsub : fps_scope.
Notation "- x" := (fopp x) : fps_scope.

Lemma fps_ext (f g : fps) : (forall n, f n = g n) -> f = g.
Proof. apply functional_extensionality. Qed.

Lemma fmul_comm f g : fmul f g = fmul g f.
Proof.
  apply fps_ext; intros n. unfold fmul. rewrite nsum_rev.
  apply nsum_ext. intros i Hi. rewrite Cmult_comm. f_equal; f_equal; lia.
Qed.
Lemma fmul_assoc f g h : fmul f (fmul g h) = fmul (fmul f g) h.
Proof.
  apply fps_ext; intros n. unfold fmul.
  transitivity (nsum (S n) (fun i => nsum (S i) (fun j => f j * g (i - j)%nat * h (n - i)%nat))).
  - rewrite nsum_tri. apply nsum_ext. intros j Hj.
    rewrite <- nsum_scal_l. replace (S (n - j)) with (S n - j)%nat by lia.
    apply nsum_ext. intros k Hk. rewrite <- Cmult_assoc. f_equal. f_equal; f_equal; lia.
  - apply nsum_ext. intros i Hi. now rewrite <- nsum_scal_r.
Qed.
Lemma fC_mul c f n : fmul (fC c) f n = c * f n.
Proof.
  unfold fmul. rewrite nsum_S_l. rewrite nsum_0.
  - simpl. rewrite Nat.sub_0_r. ring.
  - intros. simpl. ring.
Qed.
Lemma fX_mul_0 f : fmul fX f O = 0.
Proof. unfold fmul. simpl. ring. Qed.
Lemma fX_mul_S f n : fmul fX f (S n) = f n.
Proof.
  unfold fmul. rewrite nsum_S_l, nsum_S_l. rewrite nsum_0.
  - simpl. rewrite Nat.sub_0_r. ring.
  - intros. simpl. ring.
Qed.
Lemma fps_ring_theory : ring_theory f0 f1 fadd fmul fsub fopp eq.
Proof.
  constructor; intros; try (apply fps_ext; intros n; unfold fadd, fsub, fopp, f0, f1; try ring).
  - unfold f1. rewrite fC_mul. ring.
  - now rewrite fmul_comm.
  - now rewrite fmul_assoc.
  - unfold fmul. rewrite <- nsum_plus. apply nsum_ext; intros. unfold fadd. ring.
Qed.
Fixpoint fpow (f : fps) (n : nat) : fps := match n with O => f1 | S k => fmul f (fpow f k) end.

Add Ring fps_ring : fps_ring_theory.

Lemma fpow_add f a b : fpow f (a + b) = (fpow f a * fpow f b)%F.
Proof. induction a; simpl; [ring|rewrite IHa; ring]. Qed.
Lemma fpow_mul f g n : fpow (f * g)%F n = (fpow f n * fpow g n)%F.
Proof. induction n; simpl; [ring|rewrite IHn; ring]. Qed.

Lemma fC_add a b : fC (a + b) = (fC a + fC b)%F.
Proof. apply fps_ext; intros [|n]; unfold fC, fadd; ring. Qed.
Lemma fC_opp a : fC (- a) = (- fC a)%F.
Proof. apply fps_ext; intros [|n]; unfold fC, fopp; ring. Qed.
Lemma fC_mult a b : fC (a * b) = (fC a * fC b)%F.
Proof. apply fps_ext; intros n. rewrite fC_mul. destruct n; unfold fC; ring. Qed.
Lemma fC_0 : fC 0 = f0. Proof. apply fps_ext; intros [|n]; reflexivity. Qed.
Lemma fC_1 : fC 1 = f1. Proof. reflexivity. Qed.
Lemma fC_pow a n : fC (cpow a n) = fpow (fC a) n.
Proof. induction n; simpl; [reflexivity|now rewrite fC_mult, IHn]. Qed.
Lemma fC_inj a b : fC a = fC b -> a = b.
Proof. intros H. exact (f_equal (fun f => f O) H). Qed.

(* coefficient lemmas *)
Lemma fadd_c f g n : (f + g)%F n = f n + g n. Proof. reflexivity. Qed.
Lemma fsub_c f g n : (f - g)%F n = f n - g n. Proof. reflexivity. Qed.
Lemma fopp_c f n : (- f)%F n = - f n. Proof. reflexivity. Qed.

(* formal derivative *)
Definition fD (f : fps) : fps := fun n => RtoC (INR (S n)) * f (S n).
Lemma fD_add f g : fD (f + g)%F = (fD f + fD g)%F.
Proof. apply fps_ext; intros n; unfold fD, fadd; ring. Qed.
Lemma fD_mul f g : fD (f * g)%F = (fD f * g + f * fD g)%F.
Proof.
  apply fps_ext; intros n. unfold fD at 1. rewrite fadd_c. unfold fmul.
  rewrite <- nsum_scal_l.
  rewrite (nsum_ext _ _ (fun i => RtoC (INR i) * f i * g (S n - i)%nat
                               + f i * (RtoC (INR (S n - i)) * g (S n - i)%nat))).
  2:{ intros i Hi. rewrite minus_INR by lia. rewrite RtoC_minus. ring. }
  rewrite nsum_plus. f_equal.
  - rewrite nsum_S_l. simpl (INR 0).
    replace (0 * f O * g (S n - 0)%nat) with (RtoC 0) by ring.
    rewrite Cplus_0_l. apply nsum_ext. intros i Hi. unfold fD. f_equal.
  - change (nsum (S (S n)) ?h) with (nsum (S n) h + h (S n)).
    cbv beta. rewrite Nat.sub_diag. simpl (INR 0).
    replace (f (S n) * (0 * g O)) with (RtoC 0) by ring.
    rewrite Cplus_0_r. apply nsum_ext. intros i Hi. unfold fD.
    now replace (S n - i)%nat with (S (n - i)) by lia.
Qed.
Lemma fD_C c : fD (fC c) = f0.
Proof. apply fps_ext; intros n; unfold fD, fC, f0; ring. Qed.
Lemma fD_X : fD fX = f1.
Proof. apply fps_ext; intros [|n]; unfold fD, fX, f1, fC; simpl; ring. Qed.
Lemma fD_pow f n : fD (fpow f (S n)) = (fC (RtoC (INR (S n))) * fpow f n * fD f)%F.
Proof.
  induction n.
  - simpl. rewrite fD_mul. replace (fD f1) with f0 by (symmetry; apply fD_C). fold f1. ring.
  - change (fpow f (S (S n))) with (f * fpow f (S n))%F. rewrite fD_mul, IHn.
    rewrite (S_INR (S n)), RtoC_plus, fC_add, fC_1.
    change (fpow f (S n)) with (f * fpow f n)%F. ring.
Qed.
