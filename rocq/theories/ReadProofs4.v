(* Proofs about read_multiFor.py: each statement of an .mpc program, read back from its text *)
From Verif Require Import ReadSpec ReadProofs.
From Coq Require Import List ZArith Reals Lia Lra Bool.
From Verif Require Import Cplx.
Import ListNotations.

(* ---- words and blanks ---- *)
Lemma before_absent kw s : contains kw s = false -> before kw s = s.
Proof.
  induction s as [|c s IH]; cbn [contains before]; intros H; apply orb_false_iff in H; destruct H as [H1 H2]; rewrite H1; [reflexivity|]. now rewrite IH.
Qed.
Lemma other_isws c x : isws x = true -> isws c = false -> other c x = true.
Proof. intros Hx Hc. unfold other. apply negb_true_iff, Ascii.eqb_neq. congruence. Qed.
Lemma prefix_gap kw a c b : ink kw -> isws c = true -> prefix kw (a ++ String c b) = prefix kw a.
Proof.
  unfold ink. revert a. induction kw as [|x kw IH]; intros a H Hc; [now destruct a|]. cbn [all_chars] in H. apply andb_prop in H. destruct H as [H1 H2]. apply negb_true_iff in H1.
  destruct a as [|y a]; cbn [append prefix].
  - destruct (ascii_dec x c) as [->|]; [congruence|reflexivity].
  - destruct (ascii_dec x y); [now apply IH|reflexivity].
Qed.
Lemma contains_gap kw a c b : ink kw -> kw <> ""%string -> isws c = true -> contains kw (a ++ String c b) = (contains kw a || contains kw b)%bool.
Proof.
  intros H N Hc. induction a as [|y a IH].
  - assert (P := prefix_gap kw "" c b H Hc). cbn [append] in P. cbn [append contains]. rewrite P. destruct kw; [now destruct N|reflexivity].
  - cbn [append contains]. rewrite IH. change (String y (a ++ String c b)) with ((String y a) ++ String c b)%string. rewrite prefix_gap by assumption. now rewrite orb_assoc.
Qed.
Lemma contains_empty kw : kw <> ""%string -> contains kw "" = false.
Proof. destruct kw; [now intros []|reflexivity]. Qed.
Lemma contains_blank kw s : ink kw -> kw <> ""%string -> blank s -> contains kw s = false.
Proof.
  intros H N. unfold blank. induction s as [|c s IH]; [now rewrite contains_empty|]. cbn [all_chars]. intros E. apply andb_prop in E. destruct E as [E1 E2].
  assert (P := contains_gap kw "" c s H N E1). cbn [append] in P. rewrite P. now rewrite contains_empty, IH.
Qed.
Lemma contains_lead kw a s : ink kw -> kw <> ""%string -> blank a -> contains kw (a ++ s) = contains kw s.
Proof.
  intros H N. unfold blank. induction a as [|c a IH]; [reflexivity|]. cbn [all_chars]. intros E. apply andb_prop in E. destruct E as [E1 E2].
  assert (P := contains_gap kw "" c (a ++ s) H N E1). cbn [append] in P. cbn [append]. rewrite P. rewrite contains_empty by assumption. now apply IH.
Qed.
Lemma contains_trail kw s b : ink kw -> kw <> ""%string -> blank b -> contains kw (s ++ b) = contains kw s.
Proof.
  intros H N. destruct b as [|c b]; [now rewrite app_nil_s|]. unfold blank. cbn [all_chars]. intros E. apply andb_prop in E. destruct E as [E1 E2].
  rewrite contains_gap by assumption. rewrite (contains_blank kw b) by assumption. apply orb_false_r.
Qed.
Lemma prefix_longer kw x s : prefix (kw ++ x) s = true -> prefix kw s = true.
Proof.
  revert s. induction kw as [|a kw IH]; intros s; [now destruct s|]. destruct s as [|b s]; cbn [append prefix]; [discriminate|]. destruct (ascii_dec a b); [apply IH|discriminate].
Qed.
Lemma contains_longer kw x s : contains kw s = false -> contains (kw ++ x) s = false.
Proof.
  induction s as [|b s IH]; cbn [contains]; intros H; apply orb_false_iff in H; destruct H as [H1 H2]; apply orb_false_iff; split; try reflexivity.
  - destruct (prefix (kw ++ x) "") eqn:E; [|reflexivity]. apply prefix_longer in E. congruence.
  - destruct (prefix (kw ++ x) (String b s)) eqn:E; [|reflexivity]. apply prefix_longer in E. congruence.
  - now apply IH.
Qed.
Lemma contains_one c s : contains (String c "") s = false -> all_chars (other c) s = true.
Proof.
  induction s as [|b s IH]; cbn [contains all_chars]; intros H; [reflexivity|]. apply orb_false_iff in H. destruct H as [H1 H2]. rewrite prefix_one in H1. unfold other at 1. rewrite H1. now apply IH.
Qed.
Lemma strip_trail s b : blank b -> strip (s ++ b) = strip s.
Proof.
  intros H. unfold strip. destruct (String.eqb_spec (lstrip s) "") as [E|N].
  - assert (B : blank s). { clear -E. unfold blank. induction s as [|c s IH]; [reflexivity|]. cbn in *. destruct (isws c); [now apply IH|discriminate]. }
    rewrite lstrip_lead by assumption. rewrite E. cbn. clear -H. unfold blank in H. induction b as [|c b IH]; [reflexivity|]. cbn in *. destruct (isws c); [now apply IH|discriminate].
  - rewrite lstrip_trail by assumption. now apply rstrip_trail.
Qed.
Lemma show_list_other x l : numtext x = false -> x <> ","%char -> List.Forall proper_num l -> all_chars (other x) (show_list l) = true.
Proof.
  intros Hx Nc. induction 1 as [|n l Hn Hl IH]; [reflexivity|]. cbn [show_list]. destruct l as [|n' l]; [now apply show_other|].
  rewrite !all_app, show_other, IH by assumption. cbn [all_chars]. unfold other. now rewrite (proj2 (Ascii.eqb_neq x ",") Nc).
Qed.

(* ---- the line without its comment ---- *)
Lemma bare d core : proper_deco d -> all_chars (other "%") core = true -> before "%" (decorate d core) = (d_pre d ++ core ++ d_post d)%string.
Proof.
  intros [H1 H2] H. unfold decorate. assert (E : all_chars (other "%") (d_pre d ++ core ++ d_post d) = true).
  { rewrite !all_app, H, (isws_other "%" (d_pre d)), (isws_other "%" (d_post d)) by (reflexivity || assumption). reflexivity. }
  destruct (d_comment d) as [c|].
  - rewrite <- !app_assoc_s. rewrite !app_assoc_s. replace (d_pre d ++ core ++ d_post d ++ "%" ++ c)%string with ((d_pre d ++ core ++ d_post d) ++ String "%" c)%string by (now rewrite !app_assoc_s).
    now apply before_one.
  - rewrite app_nil_s. now apply (before_lacks "%").
Qed.
(* a keyword with a letter that does not occur *)
Lemma absent x kw d core : proper_deco d -> all_chars (other x) kw = false -> isws x = false -> all_chars (other x) core = true -> contains kw (d_pre d ++ core ++ d_post d) = false.
Proof.
  intros [H1 H2] Hk Hx H. apply (contains_lacks x); [assumption|]. rewrite !all_app, H, (isws_other x (d_pre d)), (isws_other x (d_post d)) by assumption. reflexivity.
Qed.
Lemma present kw d rest : contains kw (d_pre d ++ (kw ++ rest) ++ d_post d) = true.
Proof. rewrite app_assoc_s. apply contains_app. Qed.
Lemma present0 kw d : contains kw (d_pre d ++ kw ++ d_post d) = true.
Proof. apply contains_app. Qed.
(* what follows the keyword *)
Lemma taken x kw y d rest : proper_deco d -> isws x = false -> isws y = false -> all_chars (other y) (String x kw) = false -> all_chars (other y) rest = true ->
  split1 (String x kw) (d_pre d ++ (String x kw ++ rest) ++ d_post d) = Ok (rest ++ d_post d)%string.
Proof.
  intros [H1 H2] Hx Hy Hk H. rewrite app_assoc_s. apply (split1_first x kw y); [now apply isws_other|assumption|]. rewrite all_app, H. now apply isws_other.
Qed.
