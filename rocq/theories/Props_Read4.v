(* C43 continued: where the parts named in load statements are looked for (read_multiFor.py:376-381:
   filepath.replace('mpc', 'mom')). *)
From Coq Require Import List ZArith Lia Bool Ascii String.
From Verif Require Import Res Arr PyStr ReadMulti ReadSpec ReadProofs MomentSpec SolidSpec ShapesProofs Props_Read Props_Read2.
Import ListNotations.
Open Scope string_scope.

(* sub occurs somewhere in s *)
Definition occurs (sub s : string) : Prop := exists a b, s = a ++ sub ++ b.

Lemma prefix_split sub s : prefix sub s = true -> exists b, s = sub ++ b.
Proof.
  revert s. induction sub as [|c sub IH]; intros s H; [now exists s|].
  destruct s as [|d s]; [discriminate|]. cbn [prefix] in H. destruct (ascii_dec c d) as [->|]; [|discriminate].
  destruct (IH s H) as [b ->]. now exists b.
Qed.
Lemma go_skip old new a b : replace_go old new (a ++ b) (String.length a) = replace_go old new b 0.
Proof.
  induction a as [|c a IH]; cbn [append String.length]; [reflexivity|]. cbn [replace_go]. exact IH.
Qed.
Lemma go_none old new s : ~ occurs old s -> replace_go old new s 0 = s.
Proof.
  induction s as [|c s IH]; intros H; [reflexivity|]. cbn [replace_go].
  destruct (prefix old (String c s)) eqn:E.
  - exfalso. apply H. destruct (prefix_split _ _ E) as [b Hb]. exists "", b. exact Hb.
  - f_equal. apply IH. intros (a & b & ->). apply H. exists (String c a), b. reflexivity.
Qed.
Lemma app_assoc a b c : (a ++ b) ++ c = a ++ (b ++ c).
Proof. induction a as [|x a IH]; [reflexivity|]. cbn [append]. now rewrite IH. Qed.

(* s.replace(old, new): the first occurrence of old is exchanged for new and the search goes on behind it; a string
   without the pattern is returned as it is.  The two clauses determine the function. *)
Theorem C43_replace_first : forall old new a b, old <> "" ->
  (forall a' b', a ++ old ++ b = a' ++ old ++ b' -> (String.length a <= String.length a')%nat) ->
  replace old new (a ++ old ++ b) = a ++ new ++ replace old new b.
Proof.
  intros old new a b Ho. unfold replace. induction a as [|c a IH]; intros Hmin; cbn [append].
  - destruct old as [|c old]; [congruence|]. cbn [append]. cbn [replace_go].
    change (String c (old ++ b)) with (String c old ++ b). rewrite prefix_app.
    cbn [String.length]. rewrite Nat.sub_succ, Nat.sub_0_r. now rewrite go_skip.
  - cbn [replace_go]. destruct (prefix old (String c (a ++ old ++ b))) eqn:E.
    + exfalso. destruct (prefix_split _ _ E) as [b' Hb]. assert (K := Hmin "" b' Hb). cbn in K. lia.
    + f_equal. apply IH. intros a' b' E'. assert (K := Hmin (String c a') b'). cbn [append String.length] in K.
      rewrite E' in K. specialize (K eq_refl). lia.
Qed.
Theorem C43_replace_absent : forall old new s, ~ occurs old s -> replace old new s = s.
Proof. intros. unfold replace. now apply go_none. Qed.
Print Assumptions C43_replace_first.

(* so the parts of a program kept in .../mpc/... are read from .../mom/..., and a directory whose name does not
   contain mpc is used as it is *)
Theorem C43_parts_directory : forall fs a b L dg parts readable,
  (forall a' b', a ++ "mpc" ++ b = a' ++ "mpc" ++ b' -> a' = a) ->
  part_files fs (a ++ "mpc" ++ b) L dg parts readable <->
  (forall name, readable name -> exists q, read_gsq fs name (a ++ "mom" ++ b) = Ok q /\
    deg q = L /\ reality q /\ corners0 q /\ regular (parts name) /\ has_moments dg (parts name) q).
Proof.
  intros fs a b L dg parts rd H.
  assert (E : replace "mpc" "mom" (a ++ "mpc" ++ b) = a ++ "mom" ++ b).
  { rewrite C43_replace_first; [|discriminate|intros a' b' E; rewrite (H _ _ E); lia].
    f_equal. f_equal. apply C43_replace_absent. intros (x & y & ->).
    specialize (H (a ++ "mpc" ++ x) y). rewrite !app_assoc in H. specialize (H eq_refl).
    assert (K := f_equal String.length H). clear -K. revert K. rewrite !app_length || idtac.
    assert (G : forall s t, String.length (s ++ t) = (String.length s + String.length t)%nat)
      by (intros s t; induction s as [|? s IH]; [reflexivity|]; cbn [append String.length]; rewrite IH; reflexivity).
    rewrite !G. cbn. lia. }
  unfold part_files. rewrite E. reflexivity.
Qed.
Theorem C43_parts_same_directory : forall fs path L dg parts readable, ~ occurs "mpc" path ->
  part_files fs path L dg parts readable <->
  (forall name, readable name -> exists q, read_gsq fs name path = Ok q /\
    deg q = L /\ reality q /\ corners0 q /\ regular (parts name) /\ has_moments dg (parts name) q).
Proof. intros. unfold part_files. now rewrite C43_replace_absent. Qed.
Print Assumptions C43_parts_directory.

Example C43_directory_case : replace "mpc" "mom" "data/mpc/" = "data/mom/" /\ replace "mpc" "mom" "data/" = "data/".
Proof. split; reflexivity. Qed.
Example C43_directory_unique : forall a' b', "data/" ++ "mpc" ++ "/" = a' ++ "mpc" ++ b' -> a' = "data/".
Proof.
  intros a' b' E. cbn in E.
  destruct a' as [|? a']; cbn in E; [discriminate|injection E; clear E; intros E <-].
  destruct a' as [|? a']; cbn in E; [discriminate|injection E; clear E; intros E <-].
  destruct a' as [|? a']; cbn in E; [discriminate|injection E; clear E; intros E <-].
  destruct a' as [|? a']; cbn in E; [discriminate|injection E; clear E; intros E <-].
  destruct a' as [|? a']; cbn in E; [discriminate|injection E; clear E; intros E <-].
  destruct a' as [|? a']; cbn in E; [reflexivity|injection E; clear E; intros E <-].
  destruct a' as [|? a']; cbn in E; [discriminate|injection E; clear E; intros E <-].
  destruct a' as [|? a']; cbn in E; [discriminate|injection E; clear E; intros E <-].
  destruct a' as [|? a']; cbn in E; [discriminate|injection E; clear E; intros E <-].
  destruct a' as [|? a']; cbn in E; discriminate.
Qed.
