(* Proofs about read_multiFor.py: strings and numbers *)
From Verif Require Import ReadSpec VInt.
From Coq Require Import List ZArith Reals Lia Lra Bool.
Import ListNotations.

(* ---- strings ---- *)
Lemma app_assoc_s a b c : ((a ++ b) ++ c = a ++ b ++ c)%string.
Proof. induction a; cbn; [reflexivity|now f_equal]. Qed.
Lemma app_nil_s a : (a ++ "" = a)%string.
Proof. induction a; cbn; [reflexivity|now f_equal]. Qed.
Lemma all_app p a b : all_chars p (a ++ b) = (all_chars p a && all_chars p b)%bool.
Proof. induction a; cbn; [reflexivity|]. now rewrite IHa, andb_assoc. Qed.
Lemma all_impl p q s : (forall c, p c = true -> q c = true) -> all_chars p s = true -> all_chars q s = true.
Proof. intros H. induction s; cbn; [reflexivity|]. intros E. apply andb_prop in E. destruct E. now rewrite (H _ H0), IHs. Qed.
Lemma prefix_app a b : prefix a (a ++ b) = true.
Proof. induction a; cbn; [now destruct b|]. destruct (ascii_dec a a); [assumption|contradiction]. Qed.
Lemma drop_app a b : drop (String.length a) (a ++ b) = b.
Proof. induction a; cbn; [now destruct b|assumption]. Qed.
Lemma contains_app kw a b : contains kw (a ++ kw ++ b) = true.
Proof.
  induction a as [|c a IH].
  - change ("" ++ kw ++ b)%string with (kw ++ b)%string. destruct (kw ++ b)%string as [|c s] eqn:E.
    + destruct kw; [reflexivity|discriminate].
    + cbn [contains]. rewrite <- E, prefix_app. reflexivity.
  - cbn [append contains]. rewrite IH. apply orb_true_r.
Qed.
(* kw does not occur in s if one of its characters does not *)
Definition other (x c : ascii) : bool := negb (Ascii.eqb x c).
Lemma prefix_lacks x kw s : all_chars (other x) kw = false -> all_chars (other x) s = true -> prefix kw s = false.
Proof.
  revert s. induction kw as [|a kw IH]; cbn; [discriminate|]. intros s E H. destruct s as [|b s]; [reflexivity|]. cbn [prefix].
  destruct (ascii_dec a b) as [->|]; [|reflexivity]. cbn in H. apply andb_prop in H. destruct H as [H1 H2]. rewrite H1 in E. now apply IH.
Qed.
Lemma contains_lacks x kw s : all_chars (other x) kw = false -> all_chars (other x) s = true -> contains kw s = false.
Proof.
  intros E. induction s as [|b s IH]; intros H; cbn [contains].
  - now rewrite (prefix_lacks x).
  - rewrite (prefix_lacks x) by assumption. cbn in H. apply andb_prop in H. destruct H. now rewrite IH.
Qed.
Lemma before_lacks x kw s : all_chars (other x) kw = false -> all_chars (other x) s = true -> before kw s = s.
Proof.
  intros E. induction s as [|b s IH]; intros H; cbn [before].
  - now rewrite (prefix_lacks x).
  - rewrite (prefix_lacks x) by assumption. cbn in H. apply andb_prop in H. destruct H. now rewrite IH.
Qed.
(* a one-character separator *)
Lemma prefix_one c s : prefix (String c "") s = match s with String d _ => Ascii.eqb c d | _ => false end.
Proof. destruct s as [|d s]; cbn; [reflexivity|]. destruct (ascii_dec c d) as [->|N]; [now rewrite Ascii.eqb_refl; destruct s|]. symmetry. now apply Ascii.eqb_neq. Qed.
Lemma before_one c a b : all_chars (other c) a = true -> before (String c "") (a ++ String c b) = a.
Proof.
  induction a as [|d a IH]; intros H; cbn [append before].
  - now rewrite prefix_one, Ascii.eqb_refl.
  - cbn in H. apply andb_prop in H. destruct H as [H1 H2]. rewrite prefix_one. unfold other in H1. apply negb_true_iff in H1. rewrite H1. now rewrite IH.
Qed.
(* the first occurrence of kw after a stretch without its first character *)
Lemma after_first x kw a b : all_chars (other x) a = true -> after (String x kw) (a ++ String x kw ++ b) = Some b.
Proof.
  induction a as [|d a IH]; intros H.
  - cbn [append]. cbn [after append]. change (String x (kw ++ b)) with (String x kw ++ b)%string. rewrite prefix_app. f_equal. apply drop_app.
  - cbn in H. apply andb_prop in H. destruct H as [H1 H2]. cbn [append after]. cbn [prefix]. unfold other in H1. apply negb_true_iff, Ascii.eqb_neq in H1.
    destruct (ascii_dec x d); [contradiction|]. now apply IH.
Qed.
Lemma split1_first x kw y a b : all_chars (other x) a = true -> all_chars (other y) (String x kw) = false -> all_chars (other y) b = true ->
  split1 (String x kw) (a ++ String x kw ++ b) = Ok b.
Proof. intros. unfold split1. rewrite after_first by assumption. now rewrite (before_lacks y). Qed.

(* pieces *)
Lemma split_p_none p s : all_chars (fun c => negb (p c)) s = true -> split_p p s = [s].
Proof. induction s as [|c s IH]; cbn; [reflexivity|]. intros H. apply andb_prop in H. destruct H as [H1 H2]. apply negb_true_iff in H1. now rewrite H1, IH. Qed.
Lemma split_p_cons p a c b : all_chars (fun c => negb (p c)) a = true -> p c = true -> split_p p (a ++ String c b) = a :: split_p p b.
Proof.
  intros H E. induction a as [|d a IH]; cbn [append split_p].
  - now rewrite E.
  - cbn in H. apply andb_prop in H. destruct H as [H1 H2]. apply negb_true_iff in H1. now rewrite H1, IH.
Qed.
Lemma fields_one s : all_chars (other ",") s = true -> fields s = [s].
Proof. intros. apply split_p_none. exact H. Qed.
Lemma fields_cons a b : all_chars (other ",") a = true -> fields (a ++ "," ++ b) = a :: fields b.
Proof. intros. unfold fields. cbn [append]. apply split_p_cons; [exact H|reflexivity]. Qed.
Definition ink (s : string) : Prop := all_chars (fun c => negb (isws c)) s = true.
Definition nonempty (w : string) : bool := negb (String.eqb w "").
Lemma words_blank s : blank s -> words s = [].
Proof.
  unfold words, blank. induction s as [|c s IH]; cbn; [reflexivity|]. intros H. apply andb_prop in H. destruct H as [H1 H2]. rewrite H1. cbn. now apply IH.
Qed.
Lemma words_lead a s : blank a -> words (a ++ s) = words s.
Proof.
  unfold words, blank. induction a as [|c a IH]; cbn [append]; [reflexivity|]. cbn [all_chars split_p]. intros H. apply andb_prop in H. destruct H as [H1 H2].
  rewrite H1. cbn. now apply IH.
Qed.
Lemma words_ink w c s : ink w -> w <> ""%string -> isws c = true -> words (w ++ String c s) = w :: words s.
Proof.
  intros H N E. unfold words. rewrite split_p_cons by assumption. cbn [filter]. destruct (String.eqb_spec w ""); [contradiction|reflexivity].
Qed.
Lemma words_word w : ink w -> w <> ""%string -> words w = [w].
Proof. intros H N. unfold words. rewrite split_p_none by assumption. cbn. destruct (String.eqb_spec w ""); [contradiction|reflexivity]. Qed.
(* one word between blanks *)
Lemma words_1 a w b : blank a -> ink w -> w <> ""%string -> blank b -> words (a ++ w ++ b) = [w].
Proof.
  intros Ha Hw N Hb. rewrite words_lead by assumption. destruct b as [|c b]; [rewrite app_nil_s; now apply words_word|].
  cbn in Hb. apply andb_prop in Hb. destruct Hb. rewrite words_ink by assumption. f_equal. now apply words_blank.
Qed.
(* strip *)
Lemma lstrip_lead a s : blank a -> lstrip (a ++ s) = lstrip s.
Proof. unfold blank. induction a as [|c a IH]; cbn; [reflexivity|]. intros H. apply andb_prop in H. destruct H as [H1 H2]. rewrite H1. now apply IH. Qed.
Lemma rstrip_blank b : blank b -> rstrip b = ""%string.
Proof. unfold blank. induction b as [|c b IH]; cbn; [reflexivity|]. intros H. apply andb_prop in H. destruct H as [H1 H2]. now rewrite IH, H1. Qed.
Lemma rstrip_trail s b : blank b -> rstrip (s ++ b) = rstrip s.
Proof. intros H. induction s as [|c s IH]; cbn [append]; [now rewrite rstrip_blank|]. cbn [rstrip]. now rewrite IH. Qed.
Lemma rstrip_ink s : ink s -> rstrip s = s.
Proof. unfold ink. induction s as [|c s IH]; cbn; [reflexivity|]. intros H. apply andb_prop in H. destruct H as [H1 H2]. apply negb_true_iff in H1. now rewrite IH, H1. Qed.
Lemma lstrip_ink s : ink s -> lstrip s = s.
Proof. unfold ink. destruct s as [|c s]; cbn; [reflexivity|]. intros H. apply andb_prop in H. destruct H as [H1 H2]. apply negb_true_iff in H1. now rewrite H1. Qed.
Lemma lstrip_trail s b : lstrip s <> ""%string -> lstrip (s ++ b) = (lstrip s ++ b)%string.
Proof. induction s as [|c s IH]; cbn; [now intros []|]. destruct (isws c); [exact IH|reflexivity]. Qed.
Lemma strip_ink a s b : blank a -> ink s -> blank b -> strip (a ++ s ++ b) = s.
Proof.
  intros Ha Hs Hb. unfold strip. rewrite lstrip_lead by assumption. destruct (String.eqb_spec s "") as [->|N].
  - cbn. rewrite <- (app_nil_s b), lstrip_lead by assumption. reflexivity.
  - rewrite lstrip_trail by (rewrite lstrip_ink; assumption). rewrite lstrip_ink, rstrip_trail by assumption. now apply rstrip_ink.
Qed.

(* ---- numbers ---- *)
Lemma nat_ascii_48 d : (d < 10)%nat -> nat_of_ascii (ascii_of_nat (48 + d)) = (48 + d)%nat.
Proof. intros H. apply nat_ascii_embedding. lia. Qed.
Lemma digit_48 d : (d < 10)%nat -> digit (ascii_of_nat (48 + d)) = Some (Z.of_nat d).
Proof.
  intros H. unfold digit. rewrite nat_ascii_48 by assumption. rewrite (proj2 (Nat.leb_le _ _)), (proj2 (Nat.leb_le _ _)) by lia. cbn [andb]. f_equal. lia.
Qed.
Definition stops (s : string) : Prop := match s with EmptyString => True | String c _ => digit c = None end.
Lemma digits_show ds acc n s : Forall (fun d => (d < 10)%nat) ds -> stops s ->
  digits acc n (show_digits ds ++ s) = ((acc * 10 ^ Z.of_nat (length ds) + digits_value ds)%Z, (n + length ds)%nat, s).
Proof.
  revert acc n. induction ds as [|d ds IH]; intros acc n H Hs.
  - cbn [show_digits append digits_value length]. rewrite Z.mul_1_r, Z.add_0_r, Nat.add_0_r. destruct s as [|c s]; [reflexivity|]. cbn in *. now rewrite Hs.
  - inversion H; subst. cbn [show_digits append digits]. rewrite digit_48 by assumption. rewrite IH by assumption. cbn [length digits_value].
    rewrite Nat2Z.inj_succ, Z.pow_succ_r by lia. f_equal; [f_equal; [ring|lia]].
Qed.
(* the characters of a number *)
Definition numchar (c : ascii) : bool :=
  (match digit c with Some _ => true | None => false end || Ascii.eqb c "+" || Ascii.eqb c "-" || Ascii.eqb c "." || Ascii.eqb c "e")%bool.
Lemma num_digits ds : Forall (fun d => (d < 10)%nat) ds -> all_chars numchar (show_digits ds) = true.
Proof. induction 1; cbn [show_digits all_chars]; [reflexivity|]. unfold numchar at 1. rewrite digit_48 by assumption. cbn [orb andb]. assumption. Qed.
Lemma num_sign s : all_chars numchar (show_sign s) = true.
Proof. destruct s; reflexivity. Qed.
Lemma proper_parts n : proper_num n -> Forall (fun d => (d < 10)%nat) (n_int n) /\ Forall (fun d => (d < 10)%nat) (frac_digits n).
Proof. intros (_ & _ & H & _). now apply Forall_app in H. Qed.
Lemma num_core n : proper_num n -> all_chars numchar (show_core n) = true.
Proof.
  intros H. destruct (proper_parts n H) as [H1 H2]. destruct H as (_ & _ & _ & _ & He). unfold show_core. rewrite !all_app, num_sign, num_digits by assumption. cbn [andb].
  apply andb_true_intro. split.
  - unfold frac_digits in H2. destruct (n_frac n); [|reflexivity]. rewrite all_app. now rewrite num_digits.
  - destruct (n_exp n) as [[s ds]|]; [|reflexivity]. destruct He as [_ He]. rewrite !all_app, num_sign. now rewrite num_digits.
Qed.
Lemma numchar_cases c : numchar c = true -> isws c = false.
Proof.
  unfold numchar. rewrite !orb_true_iff. intros [[[[H|H]|H]|H]|H]; try (apply Ascii.eqb_eq in H; subst c; reflexivity).
  unfold digit in H. unfold isws. destruct ((48 <=? nat_of_ascii c) && (nat_of_ascii c <=? 57))%nat eqn:E; [|discriminate].
  apply andb_prop in E. destruct E as [E1 E2]. apply Nat.leb_le in E1, E2.
  destruct (((9 <=? nat_of_ascii c) && (nat_of_ascii c <=? 13)) || ((28 <=? nat_of_ascii c) && (nat_of_ascii c <=? 32)))%nat eqn:E; [|reflexivity].
  apply orb_prop in E. destruct E as [E|E]; apply andb_prop in E; destruct E as [E3 E4]; apply Nat.leb_le in E3, E4; lia.
Qed.
Lemma core_ink n : proper_num n -> ink (show_core n).
Proof. intros H. unfold ink. apply (all_impl numchar); [|now apply num_core]. intros c Hc. now rewrite numchar_cases. Qed.
Lemma ne_cons c s : String c s <> ""%string. Proof. discriminate. Qed.
Lemma core_nonempty n : proper_num n -> show_core n <> ""%string.
Proof.
  intros (_ & _ & _ & H & _). unfold show_core. destruct (n_sign n); cbn [show_sign append]; try apply ne_cons.
  unfold frac_digits in H. destruct (n_int n) as [|d ds]; cbn [show_digits append]; [|apply ne_cons].
  destruct (n_frac n); cbn [append]; [apply ne_cons|]. now destruct H.
Qed.
(* the whole text, blanks included *)
Definition numtext (c : ascii) : bool := (numchar c || isws c)%bool.
Lemma show_numtext n : proper_num n -> all_chars numtext (show n) = true.
Proof.
  intros H. assert (Hc := num_core n H). destruct H as (H1 & H2 & _). unfold show. rewrite !all_app.
  assert (W : forall s, blank s -> all_chars numtext s = true) by (intros s; apply all_impl; intros c Hw; unfold numtext; rewrite Hw; apply orb_true_r).
  rewrite (W _ H1), (W _ H2). rewrite (all_impl numchar numtext); [reflexivity| |exact Hc]. intros c K. unfold numtext. now rewrite K.
Qed.
Lemma numtext_other x : numtext x = false -> forall c, numtext c = true -> other x c = true.
Proof. intros H c Hc. unfold other. apply negb_true_iff, Ascii.eqb_neq. intros ->. congruence. Qed.
Lemma show_other x n : numtext x = false -> proper_num n -> all_chars (other x) (show n) = true.
Proof. intros Hx Hn. apply (all_impl numtext); [now apply numtext_other|now apply show_numtext]. Qed.
Lemma isws_other x s : isws x = false -> blank s -> all_chars (other x) s = true.
Proof. intros Hx. apply all_impl. intros c Hc. unfold other. apply negb_true_iff, Ascii.eqb_neq. intros ->. congruence. Qed.

Lemma sign_show s r : match r with String "+"%char _ | String "-"%char _ => False | _ => True end ->
  PyStr.sign (show_sign s ++ r) = ((match s with Minus => -1 | _ => 1 end)%Z, r).
Proof. destruct s; [|reflexivity|reflexivity]. cbn. destruct r as [|c r]; [reflexivity|]. destruct c as [[] [] [] [] [] [] [] []]; intros H; try reflexivity; contradiction. Qed.
Lemma digit_no_sign d s : (d < 10)%nat -> match String (ascii_of_nat (48 + d)) s with String "+"%char _ | String "-"%char _ => False | _ => True end.
Proof. intros H. do 10 (destruct d as [|d]; [exact I|]). lia. Qed.
Lemma head_no_sign ds s : ds <> [] -> Forall (fun d => (d < 10)%nat) ds -> match (show_digits ds ++ s)%string with String "+"%char _ | String "-"%char _ => False | _ => True end.
Proof. destruct ds as [|d ds]; [now intros []|]. intros _ H. inversion H; subst. cbn [show_digits append]. now apply digit_no_sign. Qed.

Theorem pyfloat_core a b n : proper_num n -> blank a -> blank b -> pyfloat (a ++ show_core n ++ b) = Ok (value n).
Proof.
  intros H Ha Hb. unfold pyfloat. rewrite strip_ink; [|assumption|now apply core_ink|assumption].
  destruct (proper_parts n H) as [H1 H2]. destruct H as (_ & _ & _ & Hne & He).
  destruct n as [lf sg it fr ex rt]. unfold frac_digits in *. cbn [n_int n_frac n_exp n_sign] in *.
  set (E := match ex with Some (s, ds) => ("e" ++ show_sign s ++ show_digits ds)%string | None => ""%string end).
  assert (SE : stops E) by (unfold E; destruct ex as [[? ?]|]; reflexivity).
  unfold show_core. cbn [n_int n_frac n_exp n_sign]. fold E. rewrite sign_show.
  2:{ destruct it as [|d ds].
      - cbn [show_digits append]. destruct fr as [f|]; [exact I|]. cbn [append] in *. now destruct Hne.
      - apply head_no_sign; [discriminate|assumption]. }
  set (fs := match fr with Some f => f | None => [] end) in *.
  assert (SF : stops ((match fr with Some f => "." ++ show_digits f | None => "" end) ++ E)%string) by (destruct fr; [reflexivity|exact SE]).
  rewrite digits_show by assumption.
  assert (EX : (match point ((match fr with Some f => "." ++ show_digits f | None => "" end) ++ E)%string with
      | Some r' => digits (0 * 10 ^ Z.of_nat (length it) + digits_value it) 0 r'
      | None => ((0 * 10 ^ Z.of_nat (length it) + digits_value it)%Z, O, ((match fr with Some f => "." ++ show_digits f | None => "" end) ++ E)%string) end) =
      ((digits_value it * 10 ^ Z.of_nat (length fs) + digits_value fs)%Z, length fs, E)).
  { destruct fr as [f|]; unfold fs.
    - cbn [append point]. rewrite digits_show by assumption. rewrite Z.mul_0_l, Z.add_0_l, Nat.add_0_l. reflexivity.
    - cbn [append length digits_value]. rewrite Z.mul_1_r, Z.mul_0_l, Z.add_0_l, Z.add_0_r. unfold E. destruct ex as [[? ?]|]; reflexivity. }
  rewrite EX. clear EX. cbn [n_int].
  assert (N0 : Nat.eqb (0 + length it + length fs) 0 = false).
  { apply Nat.eqb_neq. intros K. destruct it; [|cbn in K; lia]. destruct fs; [now destruct Hne|cbn in K; lia]. }
  rewrite N0.
  assert (EE : expo E = Ok (match ex with Some (s, ds) => signed s (digits_value ds) | None => 0%Z end)).
  { unfold E. destruct ex as [[s ds]|]; [|reflexivity]. destruct He as [N Hd]. cbn [append expo]. change (Ascii.eqb "e" "e") with true. cbn [orb].
    rewrite <- (app_nil_s (show_digits ds)). rewrite sign_show by now apply head_no_sign.
    rewrite digits_show by (assumption || exact I). replace (Nat.eqb (0 + length ds) 0) with false by (symmetry; apply Nat.eqb_neq; destruct ds; [now destruct N|cbn; lia]).
    cbn [orb negb String.eqb]. f_equal. destruct s; cbn [signed]; ring. }
  rewrite EE. cbn [bind]. f_equal. unfold value, exponent, frac_digits. cbn [n_sign n_int n_frac n_exp]. fold fs. unfold pw. f_equal. f_equal.
  assert (EV : forall a b, digits_value (a ++ b) = (digits_value a * 10 ^ Z.of_nat (length b) + digits_value b)%Z).
  { clear. induction a as [|d a IH]; intros b; cbn [app digits_value]; [ring|]. rewrite IH, app_length, Nat2Z.inj_add, Z.pow_add_r by lia. ring. }
  rewrite EV. destruct sg; cbn [signed]; ring.
Qed.
Lemma pyfloat_show n : proper_num n -> pyfloat (show n) = Ok (value n).
Proof. intros H. unfold show. assert (G := H). destruct G as (H1 & H2 & _). now apply pyfloat_core. Qed.
Lemma pyfloat_show_post n b : proper_num n -> blank b -> pyfloat (show n ++ b) = Ok (value n).
Proof.
  intros H Hb. unfold show. rewrite !app_assoc_s. assert (G := H). destruct G as (H1 & H2 & _). apply pyfloat_core; [assumption|assumption|].
  unfold blank in *. rewrite all_app, H2. exact Hb.
Qed.
(* a comma-separated list *)
Lemma floats_show l b : l <> [] -> Forall proper_num l -> blank b -> floats (show_list l ++ b) = Ok (map value l).
Proof.
  intros N H Hb. unfold floats. induction l as [|n l IH]; [now destruct N|]. inversion H; subst.
  destruct l as [|n' l].
  - cbn [show_list]. rewrite fields_one by (rewrite all_app, show_other, isws_other by (assumption || reflexivity); reflexivity).
    cbn [mapM map]. now rewrite pyfloat_show_post.
  - change (show_list (n :: n' :: l)) with (show n ++ "," ++ show_list (n' :: l))%string. rewrite !app_assoc_s.
    rewrite fields_cons by (now apply show_other). cbn [mapM map]. rewrite pyfloat_show by assumption. cbn [bind].
    rewrite IH by (discriminate || assumption). reflexivity.
Qed.
Lemma floats_show0 l : l <> [] -> Forall proper_num l -> floats (show_list l) = Ok (map value l).
Proof. intros. rewrite <- (app_nil_s (show_list l)). now apply floats_show. Qed.
Lemma density_show n r : proper_num n -> density (show n ++ match r with Some r => "," ++ r | None => "" end) = Ok (value n * 1000)%R.
Proof.
  intros H. unfold density. destruct r as [r|].
  - rewrite fields_cons by now apply show_other. cbn. now rewrite pyfloat_show.
  - rewrite app_nil_s, fields_one by now apply show_other. cbn. now rewrite pyfloat_show.
Qed.
