(* C42: the moment files of MULTIN (read_gsq, read_gbq) *)
From Verif Require Import ReadSpec ReadProofs TranslationsProofs GlibProofs.
From Coq Require Import List ZArith Reals Lia Lra Bool.
From Verif Require Import Cplx.
Import ListNotations.
Open Scope C_scope.

(* ---- the order (0,0), (1,0), (1,1), (2,0), ... ---- *)
Definition trig (l : Z) : Z := (l * (l + 1) / 2)%Z.
Lemma trig_S l : trig (l + 1) = (trig l + l + 1)%Z.
Proof. unfold trig. replace ((l + 1) * (l + 1 + 1))%Z with (l * (l + 1) + (l + 1) * 2)%Z by ring. rewrite Z.div_add by lia. ring. Qed.
Lemma trig_mono a b : (0 <= a <= b)%Z -> (trig a <= trig b)%Z.
Proof. intros H. unfold trig. apply Z.div_le_mono; nia. Qed.
Lemma trig_0 : trig 0 = 0%Z. Proof. reflexivity. Qed.
Lemma trig_nonneg l : (0 <= l)%Z -> (0 <= trig l)%Z.
Proof. intros. rewrite <- trig_0. apply trig_mono. lia. Qed.
Lemma trig_inj l m l' m' : (0 <= m <= l)%Z -> (0 <= m' <= l')%Z -> (trig l + m = trig l' + m')%Z -> l = l' /\ m = m'.
Proof.
  intros H H' E. destruct (Z.lt_total l l') as [K|[->|K]]; [|lia|].
  - assert (G := trig_mono (l + 1) l' ltac:(lia)). rewrite trig_S in G. lia.
  - assert (G := trig_mono (l' + 1) l ltac:(lia)). rewrite trig_S in G. lia.
Qed.
Lemma place_trig l m : (0 <= m <= l)%Z -> place l m = Z.to_nat (trig l + m). Proof. reflexivity. Qed.

(* ---- one row ---- *)
Lemma row_words r : proper_row r -> exists t, words (show_row r) = show_core (w_re r) :: show_core (w_im r) :: t.
Proof.
  intros (H1 & H2 & Hg & Ng & Hr). unfold show_row, show. assert (G1 := H1). assert (G2 := H2). destruct G1 as (L1 & R1 & _). destruct G2 as (L2 & R2 & _).
  rewrite !app_assoc_s. rewrite words_lead by assumption.
  assert (E : exists c s, isws c = true /\ blank s /\ (n_right (w_re r) ++ w_gap r)%string = String c s).
  { destruct (n_right (w_re r)) as [|c s]; cbn [append].
    - destruct (w_gap r) as [|c s]; [now destruct Ng|]. cbn in Hg. apply andb_prop in Hg. destruct Hg. now exists c, s.
    - unfold blank in *. cbn [all_chars] in R1. apply andb_prop in R1. destruct R1 as [R1 R3]. exists c, (s ++ w_gap r)%string. split; [assumption|]. split; [|reflexivity]. now rewrite all_app, R3, Hg. }
  destruct E as (c & s & Hc & Hs & E). rewrite <- (app_assoc_s (n_right (w_re r))), E. cbn [append].
  rewrite words_ink by (now apply core_ink || now apply core_nonempty || assumption). rewrite words_lead by assumption. rewrite words_lead by assumption.
  destruct (n_right (w_im r) ++ w_rest r)%string as [|c' s'] eqn:E'.
  - rewrite app_nil_s, words_word by (now apply core_ink || now apply core_nonempty). now exists [].
  - rewrite words_ink; [now eexists|now apply core_ink|now apply core_nonempty|].
    destruct (n_right (w_im r)) as [|c2 s2]; cbn [append] in E'.
    + rewrite E' in Hr. exact Hr.
    + injection E' as -> _. cbn in R2. now apply andb_prop in R2.
Qed.
Lemma pyfloat_bare n : proper_num n -> pyfloat (show_core n) = Ok (value n).
Proof. intros H. rewrite <- (app_nil_s (show_core n)). now apply (pyfloat_core "" "" n H). Qed.
Lemma read_row sc L r rows l m q : proper_row r -> (0 <= m <= l)%Z -> (l <= L)%Z ->
  read_rows sc L (show_row r :: rows) l m q =
  let q := upd q l (L + m) (row_value r * RtoC (sc l)) in
  if (l =? m)%Z then read_rows sc L rows (l + 1) 0 q else read_rows sc L rows l (m + 1) q.
Proof.
  intros H Hm Hl. cbn [read_rows]. destruct (row_words r H) as (t & ->). cbn [item nth_error bind]. destruct H as (H1 & H2 & _).
  rewrite !pyfloat_bare by assumption. cbn [bind]. destruct (Z.ltb_spec L l); [lia|]. cbv zeta. destruct (Z.ltb_spec l (m + 1)), (Z.eqb_spec l m); try lia; reflexivity.
Qed.
Definition zero_row := mkrow (mknum "" Unsigned [O] None None "") " " (mknum "" Unsigned [O] None None "") "".
(* all the rows *)
Lemma read_rows_fit sc L rows : (0 <= L)%Z -> forall l m q, List.Forall proper_row rows -> (0 <= m <= l)%Z -> deg q = L -> (l <= L \/ m = 0)%Z ->
  (trig l + m + Z.of_nat (length rows) <= trig (L + 1))%Z ->
  exists q', read_rows sc L (map show_row rows) l m q = Ok q' /\ deg q' = L /\
  forall i j, at_ q' i j = if ((0 <=? j - L) && (j - L <=? i) && (trig l + m <=? trig i + (j - L)) && (trig i + (j - L) <? trig l + m + Z.of_nat (length rows)))%bool%Z
     then row_value (nth (Z.to_nat (trig i + (j - L) - (trig l + m))) rows zero_row) * RtoC (sc i) else at_ q i j.
Proof.
  intros HL. induction rows as [|r rows IH]; intros l m q H Hm Hd Hl Hfit.
  - exists q. split; [reflexivity|]. split; [exact Hd|]. intros i j. cbn [length]. destruct (Z.leb_spec (trig l + m) (trig i + (j - L))), (Z.ltb_spec (trig i + (j - L)) (trig l + m + Z.of_nat 0));
     try lia; rewrite ?andb_false_r; reflexivity.
  - inversion H; subst. cbn [map]. assert (HlL : (l <= deg q)%Z).
    { destruct (Z_le_gt_dec l (deg q)); [assumption|]. assert (G := trig_mono (deg q + 1) l ltac:(lia)). cbn [length] in Hfit. lia. }
    rewrite read_row by assumption. cbv zeta.
    set (q1 := upd q l (deg q + m) (row_value r * RtoC (sc l))).
    assert (ST : exists l' m', (if (l =? m)%Z then read_rows sc (deg q) (map show_row rows) (l + 1) 0 q1 else read_rows sc (deg q) (map show_row rows) l (m + 1) q1)
        = read_rows sc (deg q) (map show_row rows) l' m' q1 /\ (0 <= m' <= l')%Z /\ (l' <= deg q \/ m' = 0)%Z /\ (trig l' + m' = trig l + m + 1)%Z).
    { destruct (Z.eqb_spec l m).
      - exists (l + 1)%Z, 0%Z. rewrite trig_S. repeat split; lia.
      - exists l, (m + 1)%Z. repeat split; lia. }
    destruct ST as (l' & m' & -> & Hm' & Hl' & ET). cbn [length] in Hfit.
    destruct (IH l' m' q1) as (q' & E & D & V); try assumption; [reflexivity|lia|].
    exists q'. split; [exact E|]. split; [exact D|]. intros i j. rewrite V, ET. unfold q1 at 1. rewrite upd_spec. cbn [length].
    destruct (Z.leb_spec 0 (j - deg q)), (Z.leb_spec (j - deg q) i); cbn [andb]; try (destruct (Z.eqb_spec i l), (Z.eqb_spec j (deg q + m)); try lia; reflexivity).
    destruct (Z.eqb_spec i l), (Z.eqb_spec j (deg q + m)); cbn [andb].
    + subst i j. replace (deg q + m - deg q)%Z with m by ring. destruct (Z.leb_spec (trig l + m + 1) (trig l + m)); [lia|]. cbn [andb].
      destruct (Z.leb_spec (trig l + m) (trig l + m)), (Z.ltb_spec (trig l + m) (trig l + m + Z.of_nat (S (length rows)))); try lia. cbn [andb]. now rewrite Z.sub_diag.
    + assert (NE : (trig i + (j - deg q) <> trig l + m)%Z) by (intros K; apply trig_inj in K; lia). subst i.
      destruct (Z.leb_spec (trig l + m + 1) (trig l + (j - deg q))), (Z.leb_spec (trig l + m) (trig l + (j - deg q))); try lia; cbn [andb]; [|reflexivity].
      destruct (Z.ltb_spec (trig l + (j - deg q)) (trig l + m + 1 + Z.of_nat (length rows))), (Z.ltb_spec (trig l + (j - deg q)) (trig l + m + Z.of_nat (S (length rows)))); try lia; [|reflexivity].
      replace (Z.to_nat (trig l + (j - deg q) - (trig l + m))) with (S (Z.to_nat (trig l + (j - deg q) - (trig l + m + 1)))) by lia. reflexivity.
    + assert (NE : (trig i + (j - deg q) <> trig l + m)%Z) by (intros K; apply trig_inj in K; lia).
      destruct (Z.leb_spec (trig l + m + 1) (trig i + (j - deg q))), (Z.leb_spec (trig l + m) (trig i + (j - deg q))); try lia; cbn [andb]; [|reflexivity].
      destruct (Z.ltb_spec (trig i + (j - deg q)) (trig l + m + 1 + Z.of_nat (length rows))), (Z.ltb_spec (trig i + (j - deg q)) (trig l + m + Z.of_nat (S (length rows)))); try lia; [|reflexivity].
      replace (Z.to_nat (trig i + (j - deg q) - (trig l + m))) with (S (Z.to_nat (trig i + (j - deg q) - (trig l + m + 1)))) by lia. reflexivity.
    + assert (NE : (trig i + (j - deg q) <> trig l + m)%Z) by (intros K; apply trig_inj in K; lia).
      destruct (Z.leb_spec (trig l + m + 1) (trig i + (j - deg q))), (Z.leb_spec (trig l + m) (trig i + (j - deg q))); try lia; cbn [andb]; [|reflexivity].
      destruct (Z.ltb_spec (trig i + (j - deg q)) (trig l + m + 1 + Z.of_nat (length rows))), (Z.ltb_spec (trig i + (j - deg q)) (trig l + m + Z.of_nat (S (length rows)))); try lia; [|reflexivity].
      replace (Z.to_nat (trig i + (j - deg q) - (trig l + m))) with (S (Z.to_nat (trig i + (j - deg q) - (trig l + m + 1)))) by lia. reflexivity.
Qed.

(* ---- a file: a title, a line beginning with the degree, seven more lines, the rows ---- *)
Record mfile := mkmfile { f_title : string; f_pre : string; f_degree : list nat; f_post : string; f_more : list string; f_rows : list row }.
Definition proper_file (f : mfile) : Prop :=
  blank (f_pre f) /\ f_degree f <> [] /\ List.Forall (fun d => (d < 10)%nat) (f_degree f) /\
  match f_post f with EmptyString => True | String c _ => isws c = true end /\ length (f_more f) = 7%nat /\ List.Forall proper_row (f_rows f).
Definition show_file (f : mfile) : list string :=
  f_title f :: (f_pre f ++ show_digits (f_degree f) ++ f_post f)%string :: (f_more f ++ map show_row (f_rows f))%list.
Definition degree (f : mfile) : Z := digits_value (f_degree f).
(* the number the file gives for (l, m), m >= 0; nothing is 0 *)
Definition entry (f : mfile) (l m : Z) : C := row_value (nth (place l m) (f_rows f) zero_row).

Lemma ink_digits ds : List.Forall (fun d => (d < 10)%nat) ds -> ink (show_digits ds).
Proof. intros H. unfold ink. apply (all_impl numchar); [|now apply num_digits]. intros c Hc. now rewrite numchar_cases. Qed.
Lemma digits_value_nonneg ds : (0 <= digits_value ds)%Z.
Proof. induction ds as [|d ds IH]; cbn [digits_value]; [lia|]. assert (0 <= 10 ^ Z.of_nat (length ds))%Z by (apply Z.pow_nonneg; lia). nia. Qed.
Lemma pyint_digits ds : ds <> [] -> List.Forall (fun d => (d < 10)%nat) ds -> pyint (show_digits ds) = Ok (digits_value ds).
Proof.
  intros N H. unfold pyint. assert (E := strip_ink "" (show_digits ds) "" eq_refl (ink_digits ds H) eq_refl). rewrite app_nil_s in E. cbn [append] in E. rewrite E.
  assert (G := sign_show Unsigned (show_digits ds ++ "") (head_no_sign ds "" N H)). rewrite app_nil_s in G. cbn [show_sign append] in G. rewrite G.
  assert (K := digits_show ds 0 0 "" H I). rewrite app_nil_s in K. rewrite K.
  replace (Nat.eqb (0 + length ds) 0) with false by (symmetry; apply Nat.eqb_neq; destruct ds; [now destruct N|cbn; lia]). cbn [orb negb String.eqb]. f_equal. ring.
Qed.
Lemma header f sc : proper_file f -> read_moments sc (show_file f) =
  do q <- read_rows sc (degree f) (map show_row (f_rows f)) 0 0 (zeros (degree f)); Ok (Arr.reflect q).
Proof.
  intros (H1 & H2 & H3 & H4 & H5 & _). unfold read_moments, show_file. cbn [item nth_error bind].
  assert (W : exists t, words (f_pre f ++ show_digits (f_degree f) ++ f_post f) = show_digits (f_degree f) :: t).
  { rewrite words_lead by assumption. assert (N : show_digits (f_degree f) <> ""%string) by (destruct (f_degree f); [now destruct H2|apply ne_cons]).
    destruct (f_post f) as [|c s]; [rewrite app_nil_s; exists []; now apply words_word, N; apply ink_digits|]. eexists. now apply words_ink; [apply ink_digits| |]. }
  destruct W as [t ->]. cbn [item nth_error bind]. rewrite pyint_digits by assumption. cbn [bind]. fold (degree f).
  destruct (Z.ltb_spec (degree f) 0); [exfalso; assert (G := digits_value_nonneg (f_degree f)); unfold degree in *; lia|].
  do 8 f_equal. cbn [skipn]. destruct (f_more f) as [|? [|? [|? [|? [|? [|? [|? [|? ?]]]]]]]]; try discriminate. reflexivity.
Qed.
(* every entry is the number on its line times the unit factor; the imaginary part of an m = 0 line is ignored;
   negative orders follow from the symmetry; orders above the degree are zero *)
Definition holds_file (sc : Z -> R) (f : mfile) (q : marr) : Prop :=
  deg q = degree f /\ reality q /\ corners0 q /\
  forall l m, (0 <= m <= l)%Z -> (l <= degree f)%Z ->
    mom q l m = (if (m =? 0)%Z then RtoC (Re (entry f l 0) * sc l) else entry f l m * RtoC (sc l)).
Lemma zero_value : row_value zero_row = 0.
Proof. unfold row_value, zero_row, value. cbn. apply C_eq; cbn; ring. Qed.
Lemma read_moments_file f sc : proper_file f -> (Z.of_nat (length (f_rows f)) <= trig (degree f + 1))%Z ->
  exists q, read_moments sc (show_file f) = Ok q /\ holds_file sc f q.
Proof.
  intros H Hn. rewrite header by assumption. assert (HL : (0 <= degree f)%Z) by apply digits_value_nonneg.
  destruct (read_rows_fit sc (degree f) (f_rows f) HL 0 0 (zeros (degree f))) as (q & E & D & V); [apply H|lia|reflexivity|lia|rewrite trig_0; lia|].
  rewrite E. cbn [bind]. eexists. split; [reflexivity|].
  assert (HF : half q (fun l m => entry f l m * RtoC (sc l))).
  { intros l m Hl Hm. unfold mom. rewrite V, D. replace (degree f + m - degree f)%Z with m by ring. rewrite trig_0. cbn [zeros at_].
    destruct (Z.leb_spec 0 m), (Z.leb_spec m l); cbn [andb]; try reflexivity. assert (0 <= trig l)%Z by (apply trig_nonneg; lia).
    destruct (Z.leb_spec (0 + 0) (trig l + m)); [|lia]. unfold entry. rewrite place_trig by lia. rewrite Z.sub_0_r. destruct (Z.ltb_spec (trig l + m) (0 + 0 + Z.of_nat (length (f_rows f)))); cbn [andb]; [reflexivity|].
    rewrite nth_overflow by lia. rewrite zero_value. ring. }
  destruct (reflect_reality _ _ HF) as [R1 R2]. split; [rewrite deg_reflect; exact D|]. split; [exact R1|]. split; [exact R2|].
  intros l m Hm Hl. rewrite (reflect_mom _ _ l m HF) by lia. destruct (Z.eqb_spec m 0) as [->|N].
  - unfold Re. destruct (entry f l 0) as [a b]. cbn. f_equal. ring.
  - destruct (Z.ltb_spec 0 m), (Z.leb_spec m l); try lia. reflexivity.
Qed.

(* ---- C42 ---- *)
Lemma drop_suffix a b : drop (String.length (a ++ b) - String.length b) (a ++ b) = b.
Proof.
  assert (E : String.length (a ++ b) = (String.length a + String.length b)%nat) by (induction a; cbn; congruence).
  rewrite E. replace (String.length a + String.length b - String.length b)%nat with (String.length a) by lia. apply drop_app.
Qed.
(* the extension may be left out *)
Theorem C42_extension_is_optional : forall fs name path, endswith ".gsq" name = false -> endswith ".gbq" name = false ->
  read_gsq fs name path = read_gsq fs (name ++ ".gsq") path /\ read_gbq fs name path = read_gbq fs (name ++ ".gbq") path.
Proof.
  intros fs name path H1 H2. unfold read_gsq, read_gbq, open_. rewrite H1, H2. unfold endswith. rewrite !drop_suffix, !String.eqb_refl. now split.
Qed.
(* a file that is not there, or has no second line, is an error *)
Theorem C42_missing : forall fs name path, fs (path ++ name)%string = None -> endswith ".gsq" name = true -> read_gsq fs name path = Err LookupFail.
Proof. intros fs name path H E. unfold read_gsq, open_. now rewrite E, H. Qed.
(* every entry of an inner file: value * 1e-3 * 0.01^l.  Fewer lines than the degree needs are accepted silently (entry is
   then 0), a line for every (l, m) with m <= l <= degree is the most *)
Theorem C42_gsq : forall fs name path f, endswith ".gsq" name = true -> fs (path ++ name)%string = Some (show_file f) -> proper_file f ->
  (Z.of_nat (length (f_rows f)) <= (degree f + 1) * (degree f + 2) / 2)%Z ->
  exists q, read_gsq fs name path = Ok q /\ holds_file (fun l => / 1000 * (/ 100) ^ Z.to_nat l)%R f q.
Proof.
  intros fs name path f E F H Hn. unfold read_gsq, open_. rewrite E, F. cbn [bind].
  destruct (read_moments_file f cgs H) as (q & EQ & HD & HR & HC & HV). { unfold trig. replace (degree f + 1 + 1)%Z with (degree f + 2)%Z by ring. exact Hn. }
  exists q. split; [exact EQ|]. split; [exact HD|]. split; [exact HR|]. split; [exact HC|]. intros l m Hm Hl. rewrite HV by assumption.
  assert (K : cgs l = (/ 1000 * (/ 100) ^ Z.to_nat l)%R).
  { unfold cgs, pw, Rdiv. rewrite !Rmult_1_l. f_equal. rewrite <- (Z2Nat.id l) at 1 by lia. symmetry. apply pow_powerRZ. }
  now rewrite K.
Qed.
Theorem C42_gbq : forall fs name path f, endswith ".gbq" name = true -> fs (path ++ name)%string = Some (show_file f) -> proper_file f ->
  (Z.of_nat (length (f_rows f)) <= (degree f + 1) * (degree f + 2) / 2)%Z ->
  exists q, read_gbq fs name path = Ok q /\ holds_file (fun _ => 1%R) f q.
Proof.
  intros fs name path f E F H Hn. unfold read_gbq, open_. rewrite E, F. cbn [bind].
  apply read_moments_file; [assumption|]. unfold trig. replace (degree f + 1 + 1)%Z with (degree f + 2)%Z by ring. exact Hn.
Qed.
(* one line too many *)
Lemma read_rows_app sc L a b : forall l m q q', List.Forall proper_row a -> (0 <= L)%Z -> (0 <= m <= l)%Z -> deg q = L -> (l <= L \/ m = 0)%Z ->
  (trig l + m + Z.of_nat (length a) <= trig (L + 1))%Z -> read_rows sc L (map show_row a) l m q = Ok q' ->
  exists l' m', (0 <= m' <= l')%Z /\ (l' <= L \/ m' = 0)%Z /\ (trig l' + m' = trig l + m + Z.of_nat (length a))%Z /\
  read_rows sc L (map show_row a ++ b) l m q = read_rows sc L b l' m' q'.
Proof.
  induction a as [|r a IH]; intros l m q q' H HL Hm Hd Hl Hfit E.
  - cbn in E. injection E as <-. exists l, m. cbn [length map app]. repeat split; lia.
  - inversion H; subst. cbn [length] in Hfit. assert (HlL : (l <= deg q)%Z).
    { destruct (Z_le_gt_dec l (deg q)); [assumption|]. assert (G := trig_mono (deg q + 1) l ltac:(lia)). lia. }
    cbn [map app] in *. rewrite read_row in E |- * by assumption. cbv zeta in *. destruct (Z.eqb_spec l m).
    + destruct (IH (l + 1)%Z 0%Z (upd q l (deg q + m) (row_value r * RtoC (sc l))) q' H3 HL ltac:(lia) eq_refl ltac:(lia) ltac:(rewrite trig_S; lia) E) as (l' & m' & K1 & K2 & K3 & K4).
      exists l', m'. split; [exact K1|]. split; [exact K2|]. split; [rewrite K3, trig_S; cbn [length]; lia|exact K4].
    + destruct (IH l (m + 1)%Z (upd q l (deg q + m) (row_value r * RtoC (sc l))) q' H3 HL ltac:(lia) eq_refl ltac:(lia) ltac:(lia) E) as (l' & m' & K1 & K2 & K3 & K4).
      exists l', m'. split; [exact K1|]. split; [exact K2|]. split; [rewrite K3; cbn [length]; lia|exact K4].
Qed.
Lemma rows_split f sc b : proper_file f -> (Z.of_nat (length (f_rows f)) <= trig (degree f + 1))%Z ->
  exists l' m' q', (0 <= m' <= l')%Z /\ (l' <= degree f \/ m' = 0)%Z /\ (trig l' + m' = Z.of_nat (length (f_rows f)))%Z /\
  read_rows sc (degree f) (map show_row (f_rows f) ++ b) 0 0 (zeros (degree f)) = read_rows sc (degree f) b l' m' q'.
Proof.
  intros H Hn. assert (HL : (0 <= degree f)%Z) by apply digits_value_nonneg.
  destruct (read_rows_fit sc (degree f) (f_rows f) HL 0 0 (zeros (degree f))) as (q & E & _ & _); [apply H|lia|reflexivity|lia|rewrite trig_0; lia|].
  destruct (read_rows_app sc (degree f) (f_rows f) b 0 0 (zeros (degree f)) q) as (l' & m' & K1 & K2 & K3 & K4); [apply H|exact HL|lia|reflexivity|lia|rewrite trig_0; lia|exact E|].
  exists l', m', q. split; [exact K1|]. split; [exact K2|]. split; [rewrite trig_0 in K3; lia|exact K4].
Qed.
(* the reader of both formats, from the tenth line on *)
Definition reader (r : list string -> res marr) : Prop := r = read_moments cgs \/ r = read_moments (fun _ => 1%R).
Lemma header_app f sc b : proper_file f -> read_moments sc (show_file f ++ b) =
  do q <- read_rows sc (degree f) (map show_row (f_rows f) ++ b) 0 0 (zeros (degree f)); Ok (Arr.reflect q).
Proof.
  intros H. assert (G := header f sc H). revert G. unfold read_moments, show_file. cbn [app item nth_error bind].
  destruct (nth_error (words (f_pre f ++ show_digits (f_degree f) ++ f_post f)) 0) as [w|] eqn:EW.
  2:{ unfold item. rewrite EW. cbn [bind]. intros G. exfalso. revert G. destruct (read_rows _ _ _ _ _ _); [discriminate|]. intros G.
      destruct H as (H1 & H2 & H3 & H4 & _). rewrite words_lead in EW by assumption.
      assert (N : show_digits (f_degree f) <> ""%string) by (destruct (f_degree f); [now destruct H2|apply ne_cons]).
      destruct (f_post f) as [|c s]; [rewrite app_nil_s, words_word in EW by (assumption || now apply ink_digits); discriminate|].
      rewrite words_ink in EW by (assumption || now apply ink_digits). discriminate. }
  assert (EQ : w = show_digits (f_degree f)).
  { destruct H as (H1 & H2 & H3 & H4 & _). rewrite words_lead in EW by assumption.
      assert (N : show_digits (f_degree f) <> ""%string) by (destruct (f_degree f); [now destruct H2|apply ne_cons]).
      destruct (f_post f) as [|c s]; [rewrite app_nil_s, words_word in EW by (assumption || now apply ink_digits); now injection EW|].
      rewrite words_ink in EW by (assumption || now apply ink_digits). now injection EW. }
  unfold item. rewrite EW. cbn [bind]. destruct H as (H1 & H2 & H3 & H4 & H5 & H6). subst w. rewrite pyint_digits by assumption. cbn [bind]. fold (degree f).
  destruct (Z.ltb_spec (degree f) 0); [exfalso; assert (G := digits_value_nonneg (f_degree f)); unfold degree in *; lia|].
  intros _. do 8 f_equal. cbn [skipn]. rewrite <- app_assoc. destruct (f_more f) as [|? [|? [|? [|? [|? [|? [|? [|? ?]]]]]]]]; try discriminate. reflexivity.
Qed.
(* more lines than there are moments: IndexError *)
Theorem C42_too_many_lines : forall r f row more, reader r -> proper_file f -> proper_row row ->
  (Z.of_nat (length (f_rows f)) = (degree f + 1) * (degree f + 2) / 2)%Z -> r (show_file f ++ show_row row :: more) = Err IndexError.
Proof.
  intros r f rw more Hr H Hrow Hn.
  assert (E : trig (degree f + 1) = Z.of_nat (length (f_rows f))) by (unfold trig; rewrite Hn; f_equal; f_equal; ring).
  assert (G : forall sc, read_moments sc (show_file f ++ show_row rw :: more) = Err IndexError); [|destruct Hr as [->| ->]; apply G].
  intros sc. rewrite header_app by assumption. destruct (rows_split f sc (show_row rw :: more) H ltac:(lia)) as (l' & m' & q' & K1 & K2 & K3 & ->).
  rewrite <- E in K3. assert (HL : (0 <= degree f)%Z) by apply digits_value_nonneg.
  assert (K : l' = (degree f + 1)%Z /\ m' = 0%Z) by (apply trig_inj; [assumption|lia|rewrite K3; ring]). destruct K as [-> ->].
  cbn [read_rows]. destruct (row_words rw Hrow) as (t & ->). cbn [item nth_error bind]. destruct Hrow as (P1 & P2 & _). rewrite !pyfloat_bare by assumption. cbn [bind].
  destruct (Z.ltb_spec (degree f) (degree f + 1)); [reflexivity|lia].
Qed.
(* a blank line, such as one at the end of a complete file: IndexError *)
Theorem C42_blank_line : forall r f s more, reader r -> proper_file f -> blank s ->
  (Z.of_nat (length (f_rows f)) <= (degree f + 1) * (degree f + 2) / 2)%Z -> r (show_file f ++ s :: more) = Err IndexError.
Proof.
  intros r f s more Hr H Hs Hn.
  assert (E : trig (degree f + 1) = ((degree f + 1) * (degree f + 2) / 2)%Z) by (unfold trig; f_equal; ring).
  assert (G : forall sc, read_moments sc (show_file f ++ s :: more) = Err IndexError); [|destruct Hr as [->| ->]; apply G].
  intros sc. rewrite header_app by assumption. destruct (rows_split f sc (s :: more) H ltac:(lia)) as (l' & m' & q' & K1 & K2 & K3 & ->).
  cbn [read_rows]. rewrite words_blank by assumption. reflexivity.
Qed.

(* ---- units: grams and centimetres against kilograms and metres ---- *)
Definition in_cgs (p : pt) : pt := mkpt (1000 * pm p) (vscal 100 (pp p)).
Lemma rsolid_vscal c l m v : (0 <= l)%Z -> rsolid l m (vscal c v) = RtoC (c ^ Z.to_nat l) * rsolid l m v.
Proof.
  intros Hl. destruct v as [[x y] z]. cbn [vscal rsolid]. unfold solid.
  transitivity (RtoC (nrm l m) * tri l m (RtoC c * (- (RtoC x - Ci * RtoC y) / RtoC 2)) (RtoC c * RtoC z) (RtoC c * ((RtoC x + Ci * RtoC y) / RtoC 2))).
  - assert (G : forall A A' B B' Z0 Z1 : C, A = A' -> Z0 = Z1 -> B = B' -> RtoC (nrm l m) * tri l m A Z0 B = RtoC (nrm l m) * tri l m A' Z1 B') by (intros; subst; reflexivity).
    apply G; rewrite ?RtoC_mult; field.
  - rewrite tri_scal by lia. rewrite cpow_RtoC. ring.
Qed.
Lemma vnorm_vscal c v : (0 <= c)%R -> vnorm (vscal c v) = (c * vnorm v)%R.
Proof.
  intros Hc. destruct v as [[x y] z]. unfold vscal, vnorm. transitivity (sqrt (c * c) * sqrt (x ^ 2 + y ^ 2 + z ^ 2))%R; [|now rewrite sqrt_square]. rewrite <- sqrt_mult_alt by nra. apply f_equal. ring.
Qed.
(* the factor of read_gsq turns inner moments in g, cm into those in kg, m *)
Theorem C42_gsq_units : forall P l m, (0 <= l)%Z -> inner_moment (map in_cgs P) l m * RtoC (/ 1000 * (/ 100) ^ Z.to_nat l) = inner_moment P l m.
Proof.
  intros P l m Hl. unfold inner_moment. rewrite lsum_map, Cmult_comm, <- lsum_scal. apply lsum_ext. intros [mm v] _. unfold in_cgs. cbn [pm pp]. rewrite rsolid_vscal by assumption.
  transitivity (RtoC (/ 1000 * (/ 100) ^ Z.to_nat l * (1000 * mm) * 100 ^ Z.to_nat l) * rsolid l m v); [rewrite !RtoC_mult; ring|]. do 2 f_equal.
  rewrite <- Rinv_pow by lra. field. apply pow_nonzero. lra.
Qed.
(* read_gbq applies no factor: outer moments in g, cm stay 1000 / 100^(l+1) times those in kg, m *)
Theorem C42_gbq_units : forall P l m, (0 <= l)%Z -> (forall p, In p P -> pp p <> v0) ->
  outer_moment (map in_cgs P) l m = RtoC (1000 / 100 ^ Z.to_nat (l + 1)) * outer_moment P l m.
Proof.
  intros P l m Hl HP. unfold outer_moment. rewrite lsum_map, <- lsum_scal. apply lsum_ext. intros [mm v] Hin. specialize (HP _ Hin). unfold in_cgs. cbn [pm pp] in *. unfold isolid. rewrite rsolid_vscal, vnorm_vscal by (assumption || lra).
  assert (Hv : (vnorm v ^ Z.to_nat (2 * l + 1))%R <> 0%R). { apply pow_nonzero. now apply GlibProofs.vnorm_pos_iff. }
  assert (H1 : (100 ^ Z.to_nat l)%R <> 0%R) by (apply pow_nonzero; lra).
  rewrite Cconj_mult, Cconj_RtoC, Rpow_mult_distr, !RtoC_mult. unfold Rdiv. rewrite RtoC_mult, RtoC_inv by (apply pow_nonzero; lra).
  replace (Z.to_nat (2 * l + 1)) with (Z.to_nat l + Z.to_nat (l + 1))%nat at 1 by lia. rewrite pow_add, RtoC_mult.
  assert (H2 : RtoC (100 ^ Z.to_nat (l + 1)) <> 0) by (intros K; apply RtoC_inj in K; revert K; apply pow_nonzero; lra).
  field. repeat split; try assumption; intros K; apply RtoC_inj in K; contradiction.
Qed.
(* C11: whatever a successful read returns has the symmetry and empty corners *)
Theorem C11_moment_files : forall sc f q, proper_file f -> (Z.of_nat (length (f_rows f)) <= (degree f + 1) * (degree f + 2) / 2)%Z ->
  read_moments sc (show_file f) = Ok q -> reality q /\ corners0 q.
Proof.
  intros sc f q H Hn E. destruct (read_moments_file f sc H) as (q' & E' & _ & R1 & R2 & _). { unfold trig. replace (degree f + 1 + 1)%Z with (degree f + 2)%Z by ring. exact Hn. }
  rewrite E in E'. injection E' as <-. now split.
Qed.
(* a file of degree 1 with the three lines 2.5 0, -1e-1 0.25 7 and 3 4 *)
Definition num (s : sgn) (i : list nat) f e : numeral := mknum "" s i f e "".
Definition example_file : mfile := mkmfile "title" " " [1%nat] " lmax" ["c"; "d"; "e"; "f"; "g"; "h"; "i"]%string
  [mkrow (num Unsigned [2%nat] (Some [5%nat]) None) " " (num Unsigned [0%nat] None None) "";
   mkrow (num Minus [1%nat] None (Some (Minus, [1%nat]))) "  " (num Unsigned [0%nat] (Some [2%nat; 5%nat]) None) " 7";
   mkrow (num Plus [3%nat] None None) " " (num Unsigned [4%nat] (Some []) None) ""].
Example C42_case : proper_file example_file /\ degree example_file = 1%Z /\
  show_file example_file = ["title"; " 1 lmax"; "c"; "d"; "e"; "f"; "g"; "h"; "i"; "2.5 0"; "-1e-1  0.25 7"; "+3 4."]%string /\
  exists q, read_gsq (fun _ => Some (show_file example_file)) "x" "C:" = Ok q /\ mom q 1 1 = (/ 100000 * 3, / 100000 * 4)%R.
Proof.
  assert (H : proper_file example_file). { unfold proper_file, example_file. cbn [f_pre f_degree f_post f_more f_rows]. split; [reflexivity|]. split; [discriminate|]. split; [repeat constructor|].
    split; [reflexivity|]. split; [reflexivity|].
    repeat constructor; cbn; try discriminate; lia. }
  split; [exact H|]. split; [reflexivity|]. split; [reflexivity|].
  destruct (C42_gsq (fun _ => Some (show_file example_file)) "x.gsq" "C:" example_file eq_refl eq_refl H ltac:(cbn; lia)) as (q & E & D & R1 & R2 & V).
  exists q. split; [exact E|]. rewrite V by (cbn; lia). cbn [Z.eqb]. change (entry example_file 1 1) with (row_value (mkrow (num Plus [3%nat] None None) " " (num Unsigned [4%nat] (Some []) None) "")).
  unfold row_value. cbn [w_re w_im]. change (value (num Plus [3%nat] None None)) with (3 * 1)%R. change (value (num Unsigned [4%nat] (Some []) None)) with (4 * 1)%R.
  change (Z.to_nat 1) with 1%nat. apply C_eq; unfold Cmult, RtoC, Re, Im; cbn [fst snd pow]; field.
Qed.
Print Assumptions C42_gsq.
Print Assumptions C42_too_many_lines.
