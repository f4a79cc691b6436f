(* C43: the MULTIN geometry programs (read_mpc) *)
From Verif Require Import ReadSpec ReadProofs ReadProofs2 ReadProofs3 ReadProofs4 ReadProofs5 TranslationsProofs QlmProofs ShapesProofs AchProofs4 Pg2MultiProofs.
From Coq Require Import List ZArith Reals Lia Lra Bool.
From Verif Require Import Cplx.
Import ListNotations.
Open Scope C_scope.

(* ---- walking through the lines ---- *)
Lemma nth_skipn {A} (l : list A) n i : nth_error (skipn n l) i = nth_error l (n + i).
Proof. revert l. induction n as [|n IH]; intros l; [reflexivity|]. destruct l; [now destruct i|]. cbn [skipn plus nth_error]. apply IH. Qed.
Lemma skipn_skipn {A} (l : list A) n i : skipn i (skipn n l) = skipn (n + i) l.
Proof. revert l. induction n as [|n IH]; intros l; [reflexivity|]. destruct l; [now rewrite !skipn_nil|]. cbn [skipn plus]. apply IH. Qed.
Lemma unit_pos b : (0 < unit_of b)%R. Proof. destruct b; cbn; lra. Qed.
Lemma all0_spec u x y z : (0 < u)%R -> all0 [x * u; y * u; z * u]%R = true <-> (x = 0 /\ y = 0 /\ z = 0)%R.
Proof.
  intros Hu. unfold all0. cbn [forallb]. rewrite !andb_true_iff. unfold req.
  assert (K : forall w, (if Req_EM_T (w * u) 0 then true else false) = true <-> w = 0%R).
  { intros w. destruct (Req_EM_T (w * u) 0) as [E|N]; split; intros H; try reflexivity; try discriminate.
    - apply Rmult_integral in E. destruct E; [assumption|lra].
    - subst w. exfalso. apply N. ring. }
  rewrite !K. tauto.
Qed.
Lemma add_line d : contains "add" (decorate d "add") = true.
Proof. unfold decorate. apply contains_app. Qed.

Section run.
Variable steinmetz : Z -> R -> R -> R -> res marr.
Variable fs : files.
Variable filepath : string.
Variables L dg : Z.
Variable parts : string -> body.
Variable readable : string -> Prop.
Hypothesis HL : (0 <= dg <= L)%Z.
Hypothesis Hparts : forall name, readable name -> exists q, read_gsq fs name (replace "mpc" "mom" filepath) = Ok q /\ carries L dg (parts name) q.
(* the registers hold what the program has built *)
Record holds_built (b : built) (s : regs) : Prop := mkholds {
  h_tot : carries L dg (b_total b) (r_tot s); h_wrk : carries L dg (b_work b) (r_wrk s);
  h_fac : r_fac s = unit_of (b_inch b); h_shape : b_named b = true <-> r_shape s <> None }.
Variable lines : list string.
Notation loop := (mpc_loop steinmetz fs filepath L lines).
Lemma loop_step n k s k' s' : (1 + k < length lines)%nat -> mpc_step steinmetz fs filepath L lines k s = Ok (Continue k' s') -> loop (S n) k s = loop n k' s'.
Proof. intros H E. cbn [mpc_loop]. destruct (Nat.ltb_spec k (length lines - 1)); [|lia]. now rewrite E. Qed.
Lemma loop_done n k s : (length lines <= 1 + k)%nat -> loop n k s = Ok s.
Proof. intros H. destruct n; [reflexivity|]. cbn [mpc_loop]. destruct (Nat.ltb_spec k (length lines - 1)); [lia|reflexivity]. Qed.
Lemma at_line k tl i l : skipn (1 + k) lines = tl -> nth_error tl i = Some l -> nth_error lines (1 + k + i) = Some l.
Proof. intros <- H. now rewrite nth_skipn in H. Qed.
Lemma in_range k l tl : skipn (1 + k) lines = l :: tl -> (1 + k < length lines)%nat.
Proof. intros H. destruct (Nat.lt_ge_cases (1 + k) (length lines)); [assumption|]. rewrite skipn_all2 in H by assumption. discriminate. Qed.
Lemma next_lines k i tl : skipn (1 + k) lines = tl -> skipn (1 + (k + i)) lines = skipn i tl.
Proof. intros <-. now rewrite skipn_skipn, Nat.add_assoc. Qed.

Lemma run p : forall k s b n rest, skipn (1 + k) lines = (show_prog p ++ rest)%list -> (length (show_prog p ++ rest) <= n)%nat ->
  proper_prog parts dg readable b p -> lookahead_ok p rest -> holds_built b s ->
  exists k' s' n', loop n k s = loop n' k' s' /\ skipn (1 + k') lines = rest /\ (length rest <= n')%nat /\ holds_built (fold_left (mean parts) p b) s'.
Proof.
  remember (length p) as len eqn:El. revert p El. induction len as [len IH] using lt_wf_ind. intros p El k s b n rest HS Hn HP HA HB.
  destruct p as [|st p]; [now exists k, s, n|].
  cbn [length] in El. cbn [proper_prog] in HP. destruct HP as [HP HQ]. change (show_prog (st :: p)) with (show_stmt st ++ show_prog p)%list in *.
    assert (RL : exists l tl, skipn (1 + k) lines = l :: tl) by (rewrite HS; destruct st; cbn [show_stmt app]; eauto).
    destruct RL as (l0 & tl0 & RL). assert (R := in_range _ _ _ RL). clear l0 tl0 RL.
    destruct n as [|n]. { rewrite app_length, app_length in Hn. destruct st; cbn [show_stmt length] in Hn; lia. }
    destruct HB as [B1 B2 B3 B4].
    assert (ONE : forall line s', show_stmt st = [line] -> mpc_step steinmetz fs filepath L lines k s = Ok (Continue (k + 1) s') ->
       lookahead_ok p rest -> holds_built (mean parts b st) s' -> exists k2 s2 n2, loop (S n) k s = loop n2 k2 s2 /\ skipn (1 + k2) lines = rest /\ (length rest <= n2)%nat /\ holds_built (fold_left (mean parts) (st :: p) b) s2).
    { intros line s' E1 E2 E3 E4. rewrite (loop_step _ _ _ _ _ R E2). cbn [fold_left].
      apply (IH (length p)) with (rest := rest); [lia|reflexivity| | |assumption|assumption|assumption].
      - rewrite (next_lines _ _ _ HS), E1. reflexivity.
      - rewrite E1 in Hn. cbn [app length] in Hn. lia. }
    assert (AT : forall line, show_stmt st = [line] -> nth_error lines (1 + k) = Some line).
    { intros line E. rewrite E in HS. assert (G := at_line _ _ 0 line HS eq_refl). now rewrite Nat.add_0_r in G. }
    destruct st as [d gap sd dens rest' x y z|d a1 a2 a3|d x y z|d|d|d|d m|d name|d|d|d|d]; cbn [proper lookahead_ok] in HP, HA; cbn [show_stmt] in AT, ONE.
    + (* create *) destruct HP as (D & G & F1 & F2 & F3 & SZ). destruct HA as [HA HA'].
      assert (Hu := unit_pos (b_inch b)).
      destruct (create_good steinmetz L dg (unit_of (b_inch b)) sd dens rest' HL Hu F1 F2 SZ) as (q & E & Gq). rewrite <- B3 in E.
      assert (F4 : floats (show_list [x; y; z]) = Ok [value x; value y; value z]) by (rewrite floats_show0 by (discriminate || assumption); reflexivity).
      cbn [show_stmt app] in HS.
      assert (A1 := at_line _ _ 0 _ HS eq_refl). assert (A2 := at_line _ _ 1 _ HS eq_refl). assert (A3 := at_line _ _ 2 _ HS eq_refl). assert (A4 := at_line _ _ 3 _ HS eq_refl).
      replace (1 + k + 0)%nat with (1 + k)%nat in A1 by lia. replace (1 + k + 1)%nat with (2 + k)%nat in A2 by lia. replace (1 + k + 2)%nat with (3 + k)%nat in A3 by lia. replace (1 + k + 3)%nat with (4 + k)%nat in A4 by lia.
      assert (Hn4 : (4 + length (show_prog p ++ rest) <= S n)%nat) by (cbn [show_stmt app length] in Hn |- *; lia).
      (* the ordinary path *)
      assert (ORD : (all0 [value x * r_fac s; value y * r_fac s; value z * r_fac s]%R = false \/ exists l, nth_error lines (5 + k) = Some l /\ contains "add" l = false) ->
        exists k2 s2 n2, loop (S n) k s = loop n2 k2 s2 /\ skipn (1 + k2) lines = rest /\ (length rest <= n2)%nat /\ holds_built (fold_left (mean parts) (Create d gap sd dens rest' x y z :: p) b) s2).
      { intros O. rewrite (loop_step _ _ _ _ _ R (step_create steinmetz fs filepath L lines k s d gap sd _ _ _ _ _ _ q A1 A2 A3 A4 D G E F4 O)). cbn [fold_left].
        apply (IH (length p)) with (rest := rest); [lia|reflexivity| |lia|assumption|assumption|].
        - rewrite (next_lines _ 4 _ HS). reflexivity.
        - split; cbn [mean b_total b_work b_inch b_named r_tot r_wrk r_fac r_shape]; [assumption| |assumption|now split].
          rewrite B3. now apply good_translate. }
      destruct (all0 [value x * r_fac s; value y * r_fac s; value z * r_fac s]%R) eqn:O; [|apply ORD; now left].
      assert (O' := O). rewrite B3 in O'. apply (all0_spec _ _ _ _ Hu) in O'. destruct O' as (Z1 & Z2 & Z3). destruct (HA Z1 Z2 Z3) as (l & Hl & Hadd).
      assert (A5 : nth_error lines (5 + k) = Some l). { replace (5 + k)%nat with (1 + k + 4)%nat by lia. apply (at_line _ _ 4 _ HS). exact Hl. }
      destruct (contains "add" l) eqn:C; [|apply ORD; right; now exists l].
      destruct (Hadd eq_refl) as (d' & p'' & ->). cbn [proper_prog] in HQ. destruct HQ as [HQ HQ']. cbn [lookahead_ok] in HA'.
      rewrite (loop_step _ _ _ _ _ R (step_create_add steinmetz fs filepath L lines k s d gap sd _ _ _ _ _ _ q l A1 A2 A3 A4 D G E F4 O A5 C)). cbn [fold_left].
      cbn [length] in El. apply (IH (length p'')) with (rest := rest); [lia|reflexivity| | |assumption|assumption|].
      * rewrite (next_lines _ 5 _ HS). reflexivity.
      * change (show_prog (ReadSpec.Add d' :: p'')) with (decorate d' "add" :: show_prog p'')%list in Hn4. cbn [app length] in Hn4. lia.
      * assert (Gq' : carries L dg (shifted (value x * unit_of (b_inch b), value y * unit_of (b_inch b), value z * unit_of (b_inch b))%R (dense (value dens * 1000) (solid_of (unit_of (b_inch b)) sd))) q).
        { apply (good_incl L dg (dense (value dens * 1000) (solid_of (unit_of (b_inch b)) sd))); [|  |exact Gq].
          - apply regular_shifted. apply (g_reg _ _ _ _ Gq).
          - intros f I. apply (reg_ext _ (g_reg _ _ _ _ Gq)). intros x' y' z'. unfold vadd. rewrite Z1, Z2, Z3. apply ap3; ring. }
        split; cbn [mean b_total b_work b_inch b_named r_tot r_wrk r_fac r_shape]; [now apply good_plus|assumption|assumption|now split].
    + (* rotate *) destruct HP as (D & F & N). destruct (good_rotate L dg _ _ (radians (value a1)) (radians (value a2)) (radians (value a3)) HL B2) as (q & E & Gq).
      apply (ONE _ _ eq_refl (step_rotate steinmetz fs filepath L lines k s d a1 a2 a3 q (AT _ eq_refl) D F (proj1 B4 N) E) HA).
      split; cbn [mean b_total b_work b_inch b_named r_tot r_wrk r_fac r_shape]; assumption.
    + destruct HP as (D & F & N). apply (ONE _ _ eq_refl (step_translate steinmetz fs filepath L lines k s d x y z (AT _ eq_refl) D F (proj1 B4 N)) HA).
      split; cbn [mean b_total b_work b_inch b_named r_tot r_wrk r_fac r_shape]; [assumption| |assumption|assumption]. rewrite B3. now apply good_translate.
    + destruct HP as (D & N). apply (ONE _ _ eq_refl (step_add steinmetz fs filepath L lines k s d (AT _ eq_refl) D (proj1 B4 N)) HA).
      split; cbn [mean b_total b_work b_inch b_named r_tot r_wrk r_fac r_shape]; [now apply good_plus|assumption|assumption|assumption].
    + apply (ONE _ _ eq_refl (step_cmin steinmetz fs filepath L lines k s d (AT _ eq_refl) HP) HA).
      split; cbn [mean b_total b_work b_inch b_named r_tot r_wrk r_fac r_shape]; (assumption || reflexivity).
    + apply (ONE _ _ eq_refl (step_inchin steinmetz fs filepath L lines k s d (AT _ eq_refl) HP) HA).
      split; cbn [mean b_total b_work b_inch b_named r_tot r_wrk r_fac r_shape]; (assumption || reflexivity).
    + destruct HP as (D & N). apply (ONE _ _ eq_refl (step_nsteps steinmetz fs filepath L lines k s d m (AT _ eq_refl) D N) HA). now split.
    + destruct HP as (D & LO & N). destruct (Hparts name N) as (q & E & Gq).
      apply (ONE _ _ eq_refl (step_load steinmetz fs filepath L lines k s d name q (AT _ eq_refl) D LO E ltac:(rewrite (g_deg _ _ _ _ Gq), (g_deg _ _ _ _ B2); reflexivity)) HA).
      split; cbn [mean b_total b_work b_inch b_named r_tot r_wrk r_fac r_shape]; (assumption || now split).
    + apply (ONE _ _ eq_refl (step_zero steinmetz fs filepath L lines k s d (AT _ eq_refl) HP) HA).
      split; cbn [mean b_total b_work b_inch b_named r_tot r_wrk r_fac r_shape]; [|assumption|assumption|assumption]. apply (good_times0 _ _ _ _ B1).
    + apply (ONE _ _ eq_refl (step_get steinmetz fs filepath L lines k s d (AT _ eq_refl) HP) HA).
      split; cbn [mean b_total b_work b_inch b_named r_tot r_wrk r_fac r_shape]; (assumption || now split).
    + apply (ONE _ _ eq_refl (step_put steinmetz fs filepath L lines k s d (AT _ eq_refl) HP) HA).
      split; cbn [mean b_total b_work b_inch b_named r_tot r_wrk r_fac r_shape]; (assumption || now split).
    + apply (ONE _ _ eq_refl (step_remark steinmetz fs filepath L lines k s d (AT _ eq_refl) HP) HA). now split.
Qed.
Lemma run_end k s b n rest : skipn (1 + k) lines = rest -> (length rest <= n)%nat -> ending rest -> holds_built b s -> exists s', loop n k s = Ok s' /\ holds_built b s'.
Proof.
  intros HS Hn [->|(d & more & D & ->)] HB; exists s.
  - split; [|exact HB]. apply loop_done. assert (E := skipn_length (1 + k) lines). rewrite HS in E. cbn [length] in E. lia.
  - split; [|exact HB]. assert (R := in_range _ _ _ HS). destruct n as [|n]; [cbn [length] in Hn; lia|]. assert (E := at_line _ _ 0 _ HS eq_refl). rewrite Nat.add_0_r in E.
    cbn [mpc_loop]. destruct (Nat.ltb_spec k (length lines - 1)); [|lia]. now rewrite (step_end _ _ _ _ _ _ _ d E D).
Qed.
Lemma loop_err k s n l tl e : skipn (1 + k) lines = l :: tl -> (length (l :: tl) <= n)%nat -> mpc_step steinmetz fs filepath L lines k s = Err e -> loop n k s = Err e.
Proof.
  intros HS Hn E. assert (R := in_range _ _ _ HS). destruct n as [|n]; [cbn [length] in Hn; lia|]. cbn [mpc_loop]. destruct (Nat.ltb_spec k (length lines - 1)); [|lia]. now rewrite E.
Qed.
End run.

Lemma proper_app parts dg rd b p1 p2 : proper_prog parts dg rd b (p1 ++ p2) -> proper_prog parts dg rd b p1 /\ proper_prog parts dg rd (fold_left (mean parts) p1 b) p2.
Proof. revert b. induction p1 as [|st p1 IH]; intros b H; [now split|]. cbn [app proper_prog] in H. destruct H as [H1 H2]. apply IH in H2. destruct H2. repeat split; assumption. Qed.
Lemma show_app p1 p2 : show_prog (p1 ++ p2) = (show_prog p1 ++ show_prog p2)%list.
Proof. apply flat_map_app. Qed.
(* ---- the properties ---- *)
(* the file the reader opens *)
Definition stored (fs : files) (filename filepath : string) (lines : list string) : Prop :=
  (endswith ".mpc" filename = true /\ fs (filepath ++ filename)%string = Some lines) \/
  (endswith ".mpc" filename = false /\ fs (filepath ++ filename ++ ".mpc")%string = Some lines).
(* the parts named in load statements: .gsq files, in the directory with mom for mpc, holding the moments of the part *)
Definition part_files (fs : files) (filepath : string) (L dg : Z) (parts : string -> body) (readable : string -> Prop) : Prop :=
  forall name, readable name -> exists q, read_gsq fs name (replace "mpc" "mom" filepath) = Ok q /\
    deg q = L /\ reality q /\ corners0 q /\ regular (parts name) /\ has_moments dg (parts name) q.
Definition no_parts (name : string) : Prop := False.
Lemma part_carries fs fp L dg parts readable : part_files fs fp L dg parts readable ->
  forall name, readable name -> exists q, read_gsq fs name (replace "mpc" "mom" fp) = Ok q /\ carries L dg (parts name) q.
Proof. intros H name N. destruct (H name N) as (q & E & H1 & H2 & H3 & H4 & H5). exists q. split; [exact E|]. now split. Qed.
Lemma open_stored fs fn fp lines : stored fs fn fp lines -> open_ fs ".mpc" fn fp = Ok lines.
Proof. unfold open_. intros [[E F]|[E F]]; rewrite E, F; reflexivity. Qed.
Lemma read_loop stz fs L fn fp title tl : stored fs fn fp (title :: tl) -> (0 <= L)%Z ->
  read_mpc stz fs L fn fp = (do s <- mpc_loop stz fs fp L (title :: tl) (length tl) 0 (mkregs (zeros L) (zeros L) (1 / 100) None); Ok (r_tot s)).
Proof.
  intros H HL. unfold read_mpc. rewrite (open_stored _ _ _ _ H). cbn [bind item nth_error]. destruct (Z.ltb_spec L 0); [lia|]. cbn [length]. now rewrite Nat.sub_succ, Nat.sub_0_r.
Qed.
Lemma start_holds L dg : holds_built L dg start (mkregs (zeros L) (zeros L) (1 / 100) None).
Proof. split; cbn [start b_total b_work b_inch b_named r_tot r_wrk r_fac r_shape]; [apply good_zeros|apply good_zeros|reflexivity|split; [discriminate|now intros []]]. Qed.
(* for every program: the moments returned are those of the distribution of mass the program describes, whatever the blanks,
   comments and number formats; statements after end do not matter *)
Theorem C43_program_moments : forall steinmetz fs L dg filename filepath parts readable title p rest, (0 <= dg <= L)%Z ->
  stored fs filename filepath (title :: show_prog p ++ rest) -> part_files fs filepath L dg parts readable ->
  proper_prog parts dg readable start p -> lookahead_ok p rest -> ending rest ->
  exists q, read_mpc steinmetz fs L filename filepath = Ok q /\ deg q = L /\ reality q /\ corners0 q /\ has_moments dg (builds parts p) q.
Proof.
  intros stz fs L dg fn fp parts rd title p rest HL HS HP PP LO HE. rewrite (read_loop _ _ _ _ _ _ _ HS) by lia.
  destruct (run stz fs fp L dg parts rd HL (part_carries _ _ _ _ _ _ HP) (title :: show_prog p ++ rest) p 0 _ start (length (show_prog p ++ rest)) rest eq_refl (le_n _) PP LO (start_holds L dg))
    as (k & s & n & E & S & Hn & HB).
  destruct (run_end stz fs fp L dg _ _ _ _ _ _ S Hn HE HB) as (s' & E' & HB'). rewrite E, E'. cbn [bind]. exists (r_tot s'). split; [reflexivity|].
  destruct HB' as [[T1 T2 T3 T4 T5] _ _ _]. now repeat (split; [assumption|]).
Qed.
(* a statement that uses the working part before any part exists *)
Inductive uses_working : stmt -> Prop :=
| uw_rotate d a b c : proper_deco d -> List.Forall proper_num [a; b; c] -> uses_working (Rotate d a b c)
| uw_translate d x y z : proper_deco d -> List.Forall proper_num [x; y; z] -> uses_working (Translate d x y z)
| uw_add d : proper_deco d -> uses_working (ReadSpec.Add d).
Theorem C43_no_part_yet : forall steinmetz fs L dg filename filepath parts readable title p st rest, (0 <= dg <= L)%Z ->
  stored fs filename filepath (title :: show_prog p ++ show_stmt st ++ rest) -> part_files fs filepath L dg parts readable ->
  proper_prog parts dg readable start p -> lookahead_ok p (show_stmt st ++ rest) -> b_named (fold_left (mean parts) p start) = false -> uses_working st ->
  read_mpc steinmetz fs L filename filepath = Err UnboundLocal.
Proof.
  intros stz fs L dg fn fp parts rd title p st rest HL HS HP PP LO HN U. rewrite (read_loop _ _ _ _ _ _ _ HS) by lia.
  destruct (run stz fs fp L dg parts rd HL (part_carries _ _ _ _ _ _ HP) (title :: show_prog p ++ show_stmt st ++ rest) p 0 _ start (length (show_prog p ++ show_stmt st ++ rest)) _ eq_refl (le_n _) PP LO (start_holds L dg))
    as (k & s & n & E & S & Hn & HB). rewrite E. set (ls := (title :: show_prog p ++ show_stmt st ++ rest)%list) in *. clearbody ls. clear E.
  assert (N : r_shape s = None). { destruct HB as [_ _ _ HB]. rewrite HN in HB. destruct (r_shape s); [|reflexivity]. exfalso. assert (K : false = true) by (apply HB; discriminate). discriminate. }
  enough (K : mpc_step stz fs fp L ls k s = Err UnboundLocal).
  { destruct U; cbn [show_stmt app] in S, Hn; now rewrite (loop_err stz fs fp L ls _ _ _ _ _ _ S Hn K). }
  destruct U as [d a b c D F|d x y z D F|d D]; cbn [show_stmt app] in S; assert (A := at_line _ _ _ 0 _ S eq_refl); rewrite Nat.add_0_r in A.
  - now apply (nopart_rotate _ _ _ _ _ _ _ _ _ _ _ A).
  - now apply (nopart_translate _ _ _ _ _ _ _ _ _ _ _ A).
  - now apply (nopart_add _ _ _ _ _ _ _ _ A).
Qed.

(* the passes of the while loop: as many as there are lines are enough, so the bound in the model is not a restriction *)
Theorem C43_enough_passes : forall steinmetz fs filepath L lines n m k s, (length lines <= 1 + k + n)%nat -> (length lines <= 1 + k + m)%nat ->
  mpc_loop steinmetz fs filepath L lines n k s = mpc_loop steinmetz fs filepath L lines m k s.
Proof.
  intros stz fs fp L lines n. induction n as [|n IH]; intros m k s Hn Hm.
  - rewrite (loop_done stz fs fp L lines m) by lia. reflexivity.
  - destruct m as [|m]; [rewrite (loop_done stz fs fp L lines (S n)) by lia; reflexivity|]. cbn [mpc_loop]. destruct (Nat.ltb_spec k (length lines - 1)); [|reflexivity].
    destruct (mpc_step stz fs fp L lines k s) as [[k' s'|s']|] eqn:E; cbn [bind]; try reflexivity. apply step_forward in E. apply IH; lia.
Qed.
(* a part created at the origin on the last lines of the file *)
Theorem C43_origin_last : forall steinmetz fs L dg filename filepath parts readable title p d gap sd dens r x y z, (0 <= dg <= L)%Z ->
  stored fs filename filepath (title :: show_prog (p ++ [Create d gap sd dens r x y z])) -> part_files fs filepath L dg parts readable ->
  proper_prog parts dg readable start (p ++ [Create d gap sd dens r x y z]) -> lookahead_ok p (show_prog [Create d gap sd dens r x y z]) ->
  value x = 0%R -> value y = 0%R -> value z = 0%R ->
  read_mpc steinmetz fs L filename filepath = Err IndexError.
Proof.
  intros stz fs L dg fn fp parts rd title p d gap sd dens r x y z HL HS HP PP LO Z1 Z2 Z3.
  apply proper_app in PP. destruct PP as [PP PQ]. rewrite show_app in HS. rewrite (read_loop _ _ _ _ _ _ _ HS) by lia.
  set (tl := show_prog [Create d gap sd dens r x y z]) in *.
  destruct (run stz fs fp L dg parts rd HL (part_carries _ _ _ _ _ _ HP) (title :: show_prog p ++ tl) p 0 _ start (length (show_prog p ++ tl)) _ eq_refl (le_n _) PP LO (start_holds L dg))
    as (k & s & n & E & S & Hn & HB). rewrite E. set (ls := (title :: show_prog p ++ tl)%list) in *. clearbody ls. clear E.
  cbn [proper_prog proper] in PQ. destruct PQ as [(D & G & F1 & F2 & F3 & SZ) _].
  set (b := fold_left (mean parts) p start) in *. destruct HB as [_ _ B3 _]. assert (Hu := unit_pos (b_inch b)).
  destruct (create_good stz L dg (unit_of (b_inch b)) sd dens r HL Hu F1 F2 SZ) as (q & E & Gq). rewrite <- B3 in E.
  assert (F4 : floats (show_list [x; y; z]) = Ok [value x; value y; value z]) by (rewrite floats_show0 by (discriminate || assumption); reflexivity).
  unfold tl in S, Hn. cbn [show_prog flat_map show_stmt app] in S, Hn.
  assert (A1 := at_line _ _ _ 0 _ S eq_refl). assert (A2 := at_line _ _ _ 1 _ S eq_refl). assert (A3 := at_line _ _ _ 2 _ S eq_refl). assert (A4 := at_line _ _ _ 3 _ S eq_refl).
  assert (A5 : nth_error ls (5 + k) = None). { assert (K := nth_skipn ls (1 + k) 4). rewrite S in K. cbn [nth_error] in K. now replace (5 + k)%nat with (1 + k + 4)%nat by lia. }
  replace (1 + k + 0)%nat with (1 + k)%nat in A1 by lia. replace (1 + k + 1)%nat with (2 + k)%nat in A2 by lia. replace (1 + k + 2)%nat with (3 + k)%nat in A3 by lia. replace (1 + k + 3)%nat with (4 + k)%nat in A4 by lia.
  assert (O : all0 [value x * r_fac s; value y * r_fac s; value z * r_fac s]%R = true) by (rewrite B3; now apply all0_spec).
  now rewrite (loop_err stz fs fp L ls _ _ _ _ _ _ S Hn (fail_last stz fs fp L ls k s d gap sd _ _ _ _ _ _ q A1 A2 A3 A4 D G E F4 O A5)).
Qed.
(* the look-ahead does not strip comments: a remark that mentions add adds the part *)
Theorem C43_remark_adds : forall steinmetz fs L dg filename filepath parts readable title p d gap sd dens r x y z d' rest, (0 <= dg <= L)%Z ->
  stored fs filename filepath (title :: show_prog (p ++ [Create d gap sd dens r x y z; Remark d']) ++ rest) -> part_files fs filepath L dg parts readable ->
  proper_prog parts dg readable start (p ++ [Create d gap sd dens r x y z; Remark d']) -> lookahead_ok p (show_prog [Create d gap sd dens r x y z; Remark d'] ++ rest) -> ending rest ->
  value x = 0%R -> value y = 0%R -> value z = 0%R -> contains "add" (decorate d' "") = true ->
  exists q, read_mpc steinmetz fs L filename filepath = Ok q /\ has_moments dg (builds parts (p ++ [Create d gap sd dens r x y z; ReadSpec.Add d'])) q.
Proof.
  intros stz fs L dg fn fp parts rd title p d gap sd dens r x y z d' rest HL HS HP PP LO HE Z1 Z2 Z3 HC.
  apply proper_app in PP. destruct PP as [PP PQ]. rewrite show_app, <- app_assoc in HS. rewrite (read_loop _ _ _ _ _ _ _ HS) by lia.
  set (tl := (show_prog [Create d gap sd dens r x y z; Remark d'] ++ rest)%list) in *.
  destruct (run stz fs fp L dg parts rd HL (part_carries _ _ _ _ _ _ HP) (title :: show_prog p ++ tl) p 0 _ start (length (show_prog p ++ tl)) _ eq_refl (le_n _) PP LO (start_holds L dg))
    as (k & s & n & E & S & Hn & HB). rewrite E. set (ls := (title :: show_prog p ++ tl)%list) in *. clearbody ls. clear E.
  cbn [proper_prog proper] in PQ. destruct PQ as [(D & G & F1 & F2 & F3 & SZ) _].
  unfold builds. rewrite fold_left_app. set (b := fold_left (mean parts) p start) in *. destruct HB as [B1 B2 B3 B4]. assert (Hu := unit_pos (b_inch b)).
  destruct (create_good stz L dg (unit_of (b_inch b)) sd dens r HL Hu F1 F2 SZ) as (q & E & Gq). rewrite <- B3 in E.
  assert (F4 : floats (show_list [x; y; z]) = Ok [value x; value y; value z]) by (rewrite floats_show0 by (discriminate || assumption); reflexivity).
  unfold tl in S, Hn. cbn [show_prog flat_map show_stmt app] in S, Hn.
  assert (A1 := at_line _ _ _ 0 _ S eq_refl). assert (A2 := at_line _ _ _ 1 _ S eq_refl). assert (A3 := at_line _ _ _ 2 _ S eq_refl). assert (A4 := at_line _ _ _ 3 _ S eq_refl). assert (A5 := at_line _ _ _ 4 _ S eq_refl).
  replace (1 + k + 0)%nat with (1 + k)%nat in A1 by lia. replace (1 + k + 1)%nat with (2 + k)%nat in A2 by lia. replace (1 + k + 2)%nat with (3 + k)%nat in A3 by lia.
  replace (1 + k + 3)%nat with (4 + k)%nat in A4 by lia. replace (1 + k + 4)%nat with (5 + k)%nat in A5 by lia.
  assert (O : all0 [value x * r_fac s; value y * r_fac s; value z * r_fac s]%R = true) by (rewrite B3; now apply all0_spec).
  assert (R := in_range _ _ _ _ S). destruct n as [|n]; [cbn [length] in Hn; lia|].
  rewrite (loop_step _ _ _ _ _ _ _ _ _ _ R (step_create_add stz fs fp L ls k s d gap sd _ _ _ _ _ _ q _ A1 A2 A3 A4 D G E F4 O A5 HC)).
  assert (S' := next_lines _ _ 5 _ S). cbn [skipn] in S'. cbn [length] in Hn.
  assert (HB : holds_built L dg (fold_left (mean parts) [Create d gap sd dens r x y z; ReadSpec.Add d'] b) (mkregs (arr_plus (r_tot s) q) q (r_fac s) (Some (decl_name sd)))).
  { assert (Gq' : carries L dg (shifted (value x * unit_of (b_inch b), value y * unit_of (b_inch b), value z * unit_of (b_inch b))%R (dense (value dens * 1000) (solid_of (unit_of (b_inch b)) sd))) q).
    { apply (good_incl L dg (dense (value dens * 1000) (solid_of (unit_of (b_inch b)) sd))); [|  |exact Gq].
      - apply regular_shifted. apply (g_reg _ _ _ _ Gq).
      - intros f I. apply (reg_ext _ (g_reg _ _ _ _ Gq)). intros x' y' z'. unfold vadd. rewrite Z1, Z2, Z3. apply ap3; ring. }
    split; cbn [fold_left mean b_total b_work b_inch b_named r_tot r_wrk r_fac r_shape]; [now apply good_plus|assumption|assumption|now split]. }
  destruct (run_end stz fs fp L dg ls (k + 5) _ _ n rest S' ltac:(lia) HE HB) as (s' & E' & [HB' _ _ _]). rewrite E'. cbn [bind]. exists (r_tot s'). split; [reflexivity|]. apply (g_mom _ _ _ _ HB').
Qed.
(* ---- create statements that fail or are skipped ---- *)
Definition shape_names : list string :=
  ["cylinder"; "sphere"; "cone"; "triangle"; "trapezoid"; "partcylinder"; "tetrahedron"; "platehole"; "cylhole"; "pyramid"; "rectangle"]%string.
Lemma create_unknown stz L u w p dl : ~ In w shape_names -> create stz L u w p dl = None.
Proof.
  intros H. unfold create. repeat match goal with |- context [(w =? ?k)%string] => destruct (String.eqb_spec w k) as [->|_]; [exfalso; apply H; cbn; tauto|] end. reflexivity.
Qed.
(* a word that names no shape *)
Definition unknown_word (w : string) : Prop := ink w /\ w <> ""%string /\ contains "%" w = false /\ contains "create" w = false /\ ~ In w shape_names.
Definition dull (l : string) : Prop := contains "create" l = false /\ contains "end" l = false.
Lemma unknown_line d gap w : proper_deco d -> blank gap -> unknown_word w ->
  before "%" (decorate d ("create" ++ gap ++ w)) = (d_pre d ++ ("create" ++ gap ++ w) ++ d_post d)%string /\
  contains "create" (d_pre d ++ ("create" ++ gap ++ w) ++ d_post d) = true /\
  (do r <- split1 "create" (d_pre d ++ ("create" ++ gap ++ w) ++ d_post d); item (words r) 0) = Ok w.
Proof.
  intros D G (I1 & I2 & I3 & I4 & _). apply contains_one in I3. split; [|split].
  - apply bare; [assumption|]. rewrite !all_app, I3, (isws_other "%" gap) by (reflexivity || assumption). reflexivity.
  - apply (present "create").
  - destruct D as [D1 D2]. unfold split1. rewrite !app_assoc_s. rewrite (after_first "c" "reate") by now apply isws_other. cbn [bind].
    rewrite before_absent; [now rewrite words_1|]. rewrite contains_lead, contains_trail by (reflexivity || discriminate || assumption). exact I4.
Qed.
Lemma skip_to lines junk l more : forall k n, skipn (k + 2) lines = (junk ++ l :: more)%list -> List.Forall dull junk -> ~ dull l -> (length junk < n)%nat ->
  skip_unknown lines n k = Ok (k + length junk)%nat.
Proof.
  induction junk as [|j junk IH]; intros k n HS HJ Hl Hn; (destruct n as [|n]; [cbn [length] in Hn; lia|]); cbn [skip_unknown].
  - assert (E := nth_skipn lines (k + 2) 0). rewrite HS in E. cbn [app nth_error] in E. rewrite Nat.add_0_r in E. unfold item. rewrite <- E. cbn [bind].
    destruct (contains "create" l) eqn:E1, (contains "end" l) eqn:E2; cbn [negb andb length]; rewrite ?Nat.add_0_r; try reflexivity. now destruct Hl.
  - assert (E := nth_skipn lines (k + 2) 0). rewrite HS in E. cbn [app nth_error] in E. rewrite Nat.add_0_r in E. unfold item. rewrite <- E. cbn [bind].
    inversion HJ as [|? ? [J1 J2] HJ']; subst. rewrite J1, J2. cbn [negb andb]. rewrite (IH (k + 1)%nat n); [cbn [length]; f_equal; lia| |assumption|assumption|cbn [length] in Hn; lia].
    assert (K := skipn_skipn lines (k + 2) 1). rewrite HS in K. cbn [app skipn] in K. rewrite K. f_equal. lia.
Qed.
Lemma skip_out lines junk : forall k n, skipn (k + 2) lines = junk -> List.Forall dull junk -> (length junk < n)%nat -> skip_unknown lines n k = Err IndexError.
Proof.
  induction junk as [|j junk IH]; intros k n HS HJ Hn; (destruct n as [|n]; [cbn [length] in Hn; lia|]); cbn [skip_unknown].
  - assert (E := nth_skipn lines (k + 2) 0). rewrite HS in E. cbn [nth_error] in E. rewrite Nat.add_0_r in E. unfold item. now rewrite <- E.
  - assert (E := nth_skipn lines (k + 2) 0). rewrite HS in E. cbn [app nth_error] in E. rewrite Nat.add_0_r in E. unfold item. rewrite <- E. cbn [bind].
    inversion HJ as [|? ? [J1 J2] HJ']; subst. rewrite J1, J2. cbn [negb andb]. apply (IH (k + 1)%nat n); [|assumption|cbn [length] in Hn; lia].
    assert (K := skipn_skipn lines (k + 2) 1). rewrite HS in K. cbn [app skipn] in K. rewrite K. f_equal. lia.
Qed.
Lemma step_unknown stz fs fp L lines k s d gap w : nth_error lines (1 + k) = Some (decorate d ("create" ++ gap ++ w)) -> proper_deco d -> blank gap -> unknown_word w ->
  mpc_step stz fs fp L lines k s = (do k' <- skip_unknown lines (length lines - 1 - k) k; Ok (Continue (k' + 1) (mkregs (r_tot s) (r_wrk s) (r_fac s) (Some w)))).
Proof.
  intros H D G W. unfold mpc_step; rewrite (item_at _ _ _ H); cbn [bind]. destruct (unknown_line d gap w D G W) as (B1 & B2 & B3).
  rewrite B1, B2. destruct (split1 "create" _) as [r|]; [|discriminate]. cbn [bind] in B3 |- *. rewrite B3. cbn [bind]. rewrite create_unknown by apply W. reflexivity.
Qed.
(* an unknown shape: everything up to the next line that mentions create or end is skipped *)
Theorem C43_unknown_shape_skipped : forall steinmetz fs L dg filename filepath parts readable title p d gap w junk p2 rest l more, (0 <= dg <= L)%Z ->
  stored fs filename filepath (title :: show_prog p ++ (decorate d ("create" ++ gap ++ w) :: junk) ++ show_prog p2 ++ rest) -> part_files fs filepath L dg parts readable ->
  proper_prog parts dg readable start p -> lookahead_ok p ((decorate d ("create" ++ gap ++ w) :: junk) ++ show_prog p2 ++ rest) ->
  proper_deco d -> blank gap -> unknown_word w -> List.Forall dull junk -> (show_prog p2 ++ rest = l :: more)%list -> ~ dull l ->
  let b := fold_left (mean parts) p start in let b' := mkbuilt (b_inch b) (b_total b) (b_work b) true in
  proper_prog parts dg readable b' p2 -> lookahead_ok p2 rest -> ending rest ->
  exists q, read_mpc steinmetz fs L filename filepath = Ok q /\ has_moments dg (b_total (fold_left (mean parts) p2 b')) q.
Proof.
  intros stz fs L dg fn fp parts rd title p d gap w junk p2 rest l more HL HS HP PP LO D G W HJ HM Hl b b' PQ LO2 HE. rewrite (read_loop _ _ _ _ _ _ _ HS) by lia.
  set (tl := ((decorate d ("create" ++ gap ++ w) :: junk) ++ show_prog p2 ++ rest)%list) in *.
  destruct (run stz fs fp L dg parts rd HL (part_carries _ _ _ _ _ _ HP) (title :: show_prog p ++ tl) p 0 _ start (length (show_prog p ++ tl)) _ eq_refl (le_n _) PP LO (start_holds L dg))
    as (k & s & n & E & S & Hn & HB). rewrite E. set (ls := (title :: show_prog p ++ tl)%list) in *. clearbody ls. clear E. fold b in HB.
  unfold tl in S, Hn. cbn [app] in S, Hn. rewrite HM in S. assert (A := at_line _ _ _ 0 _ S eq_refl). rewrite Nat.add_0_r in A.
  assert (SL := skipn_length (1 + k) ls). rewrite S in SL. cbn [length] in SL. rewrite app_length in SL. cbn [length] in SL.
  assert (ST := step_unknown stz fs fp L ls k s d gap w A D G W). assert (S2 := next_lines _ _ 1 _ S). cbn [skipn] in S2.
  rewrite (skip_to ls junk l more k) in ST; [|now replace (k + 2)%nat with (1 + (k + 1))%nat by lia|assumption|assumption|lia]. cbn [bind] in ST.
  assert (R := in_range _ _ _ _ S). destruct n as [|n]; [cbn [length] in Hn; lia|]. rewrite (loop_step _ _ _ _ _ _ _ _ _ _ R ST).
  assert (S3 : skipn (1 + (k + length junk + 1)) ls = (show_prog p2 ++ rest)%list).
  { replace (1 + (k + length junk + 1))%nat with (1 + (k + (1 + length junk)))%nat by lia. rewrite (next_lines _ _ _ _ S), HM. change (skipn (length junk) (junk ++ l :: more) = (l :: more))%list. rewrite skipn_app, skipn_all, Nat.sub_diag. reflexivity. }
  cbn [length] in Hn. rewrite app_length in Hn.
  assert (HB' : holds_built L dg b' (mkregs (r_tot s) (r_wrk s) (r_fac s) (Some w))) by (destruct HB; split; cbn [b' b_total b_work b_inch b_named r_tot r_wrk r_fac r_shape]; (assumption || now split)).
  destruct (run stz fs fp L dg parts rd HL (part_carries _ _ _ _ _ _ HP) ls p2 _ _ b' n rest S3 ltac:(lia) PQ LO2 HB') as (k3 & s3 & n3 & E3 & S4 & Hn3 & HB3).
  destruct (run_end stz fs fp L dg _ _ _ _ _ _ S4 Hn3 HE HB3) as (s' & E' & [HB4 _ _ _]). rewrite E3, E'. cbn [bind]. exists (r_tot s'). split; [reflexivity|]. apply (g_mom _ _ _ _ HB4).
Qed.
(* ... and if there is none the reader runs off the end *)
Theorem C43_unknown_shape_last : forall steinmetz fs L dg filename filepath parts readable title p d gap w junk, (0 <= dg <= L)%Z ->
  stored fs filename filepath (title :: show_prog p ++ decorate d ("create" ++ gap ++ w) :: junk) -> part_files fs filepath L dg parts readable ->
  proper_prog parts dg readable start p -> lookahead_ok p (decorate d ("create" ++ gap ++ w) :: junk) ->
  proper_deco d -> blank gap -> unknown_word w -> List.Forall dull junk -> read_mpc steinmetz fs L filename filepath = Err IndexError.
Proof.
  intros stz fs L dg fn fp parts rd title p d gap w junk HL HS HP PP LO D G W HJ. rewrite (read_loop _ _ _ _ _ _ _ HS) by lia.
  set (tl := (decorate d ("create" ++ gap ++ w) :: junk)%list) in *.
  destruct (run stz fs fp L dg parts rd HL (part_carries _ _ _ _ _ _ HP) (title :: show_prog p ++ tl) p 0 _ start (length (show_prog p ++ tl)) _ eq_refl (le_n _) PP LO (start_holds L dg))
    as (k & s & n & E & S & Hn & HB). rewrite E. set (ls := (title :: show_prog p ++ tl)%list) in *. clearbody ls. clear E.
  unfold tl in S, Hn. assert (A := at_line _ _ _ 0 _ S eq_refl). rewrite Nat.add_0_r in A.
  assert (SL := skipn_length (1 + k) ls). rewrite S in SL. cbn [length] in SL.
  assert (ST := step_unknown stz fs fp L ls k s d gap w A D G W). assert (S2 := next_lines _ _ 1 _ S). cbn [skipn] in S2.
  rewrite (skip_out ls junk k) in ST; [|now replace (k + 2)%nat with (1 + (k + 1))%nat by lia|assumption|lia]. cbn [bind] in ST.
  now rewrite (loop_err stz fs fp L ls _ _ _ _ _ _ S Hn ST).
Qed.
(* a create statement whose shape cannot be made *)
Lemma create_fails stz fs L dg fn fp parts rd title p d gap sd dens r x y z rest e : (0 <= dg <= L)%Z ->
  stored fs fn fp (title :: show_prog p ++ show_stmt (Create d gap sd dens r x y z) ++ rest) -> part_files fs fp L dg parts rd ->
  proper_prog parts dg rd start p -> lookahead_ok p (show_stmt (Create d gap sd dens r x y z) ++ rest) -> proper_deco d -> blank gap ->
  (forall u, (0 < u)%R -> create stz L u (decl_name sd) (Ok (show_list (decl_params sd))) (Ok (density_line dens r)) = Some (Err e)) -> read_mpc stz fs L fn fp = Err e.
Proof.
  intros HL HS HP PP LO D G F. rewrite (read_loop _ _ _ _ _ _ _ HS) by lia.
  set (tl := (show_stmt (Create d gap sd dens r x y z) ++ rest)%list) in *.
  destruct (run stz fs fp L dg parts rd HL (part_carries _ _ _ _ _ _ HP) (title :: show_prog p ++ tl) p 0 _ start (length (show_prog p ++ tl)) _ eq_refl (le_n _) PP LO (start_holds L dg))
    as (k & s & n & E & S & Hn & HB). rewrite E. set (ls := (title :: show_prog p ++ tl)%list) in *. clearbody ls. clear E.
  unfold tl in S, Hn. cbn [show_stmt app] in S, Hn. destruct HB as [_ _ B3 _]. specialize (F (r_fac s) ltac:(rewrite B3; apply unit_pos)).
  assert (A1 := at_line _ _ _ 0 _ S eq_refl). assert (A2 := at_line _ _ _ 1 _ S eq_refl). assert (A3 := at_line _ _ _ 2 _ S eq_refl).
  replace (1 + k + 0)%nat with (1 + k)%nat in A1 by lia. replace (1 + k + 1)%nat with (2 + k)%nat in A2 by lia. replace (1 + k + 2)%nat with (3 + k)%nat in A3 by lia.
  apply item_at in A2, A3.
  now rewrite (loop_err stz fs fp L ls _ _ _ _ _ _ S Hn (fail_create stz fs fp L ls k s d gap sd _ _ e A1 A2 A3 D G F)).
Qed.
(* a rectangle given as a trapezoid of equal sides *)
Theorem C43_trapezoid_equal_sides : forall steinmetz fs L dg filename filepath parts readable title p d gap w1 w2 h t dens r x y z rest, (0 <= dg <= L)%Z ->
  let st := Create d gap (Trapezoid w1 w2 h t) dens r x y z in
  stored fs filename filepath (title :: show_prog p ++ show_stmt st ++ rest) -> part_files fs filepath L dg parts readable ->
  proper_prog parts dg readable start p -> lookahead_ok p (show_stmt st ++ rest) -> proper_deco d -> blank gap -> List.Forall proper_num [w1; w2; h; t] -> proper_num dens ->
  value w1 = value w2 -> read_mpc steinmetz fs L filename filepath = Err ZeroDivision.
Proof.
  intros stz fs L dg fn fp parts rd title p d gap w1 w2 h t dens r x y z rest HL st HS HP PP LO D G FN FD EW.
  apply (create_fails stz fs L dg fn fp parts rd title p d gap (Trapezoid w1 w2 h t) dens r x y z rest ZeroDivision HL HS HP PP LO D G).
  intros u Hu. unfold create. cbn [decl_name decl_params String.eqb Ascii.eqb Bool.eqb bind]. rewrite floats_show0 by (discriminate || assumption). cbn [bind map fscale].
  unfold density_line. rewrite density_show by assumption. rewrite EW. unfold rlt. destruct (Rlt_dec _ _) as [K|K]; [exfalso; lra|]. cbn [bind].
  unfold is0, req. destruct (Req_EM_T _ 0) as [K'|K']; [reflexivity|]. exfalso. apply K'. ring.
Qed.
(* the upper radius of a cone is read and ignored: a frustum gets the moments, and the mass, of the whole cone *)
Theorem C43_frustum_wrong : forall steinmetz fs L filename filepath parts title d gap LR UR H dens r x y z d' rest, (0 <= L)%Z ->
  let p := [Create d gap (ConeDecl LR UR H) dens r x y z; ReadSpec.Add d'] in
  stored fs filename filepath (title :: show_prog p ++ rest) -> ending rest ->
  proper_deco d -> proper_deco d' -> blank gap -> List.Forall proper_num [LR; UR; H; dens; x; y; z] -> (0 < value LR)%R -> (0 < value UR)%R -> (0 < value H)%R -> value dens <> 0%R ->
  value x = 0%R -> value y = 0%R -> value z = 0%R ->
  exists q, read_mpc steinmetz fs L filename filepath = Ok q /\ ~ has_moments 0 (builds parts p) q.
Proof.
  intros stz fs L fn fp parts title d gap LR UR H dens r x y z d' rest HL p HS HE D D' G FN P1 P2 P3 Nd Z1 Z2 Z3. rewrite (read_loop _ _ _ _ _ _ _ HS) by lia.
  set (tl := (show_prog p ++ rest)%list) in *. set (ls := (title :: tl)%list). set (s := mkregs (zeros L) (zeros L) (1 / 100) None).
  assert (S : skipn (1 + 0) ls = tl) by reflexivity. unfold tl, p in S. cbn [show_prog flat_map show_stmt app] in S. unfold tl, p. cbn [show_prog flat_map show_stmt app length]. fold tl. clearbody ls. clear tl HS.
  inversion_clear FN as [|? ? N1 FN1]. inversion_clear FN1 as [|? ? N2 FN2]. inversion_clear FN2 as [|? ? N3 FN3]. inversion_clear FN3 as [|? ? N4 FN4].
  pose (zn := mknum "" Unsigned [O] None None ""). assert (PZ : proper_num zn). { unfold zn. repeat split; try discriminate. cbn. constructor; [lia|constructor]. }
  assert (VZ : value zn = 0%R) by (unfold value; cbn; ring).
  destruct (create_good stz L 0 (1 / 100) (ConeDecl LR zn H) dens r ltac:(lia) ltac:(lra)) as (q & E & Gq); [cbn [decl_params]; auto|assumption|cbn [sizes_ok]; repeat split; assumption|].
  assert (E' : create stz L (r_fac s) "cone" (Ok (show_list [LR; UR; H])) (Ok (density_line dens r)) = Some (Ok q)).
  { rewrite <- E. unfold create. cbn [decl_name decl_params String.eqb Ascii.eqb Bool.eqb bind]. rewrite !floats_show0 by (discriminate || auto). cbn [bind map fscale]. reflexivity. }
  assert (F4 : floats (show_list [x; y; z]) = Ok [value x; value y; value z]) by (rewrite floats_show0 by (discriminate || assumption); reflexivity).
  assert (O : all0 [value x * r_fac s; value y * r_fac s; value z * r_fac s]%R = true) by (apply all0_spec; [cbn; lra|auto]).
  assert (A1 := at_line _ _ _ 0 _ S eq_refl). assert (A2 := at_line _ _ _ 1 _ S eq_refl). assert (A3 := at_line _ _ _ 2 _ S eq_refl). assert (A4 := at_line _ _ _ 3 _ S eq_refl). assert (A5 := at_line _ _ _ 4 _ S eq_refl).
  cbn [plus] in A1, A2, A3, A4, A5.
  rewrite (loop_step _ _ _ _ _ _ _ _ _ _ (in_range _ _ _ _ S) (step_create_add stz fs fp L ls 0 s d gap (ConeDecl LR UR H) _ _ _ _ _ _ q _ A1 A2 A3 A4 D G E' F4 O A5 (add_line d'))).
  assert (S' := next_lines _ _ 5 _ S). cbn [skipn] in S'.
  assert (GT : carries L 0 (together nothing (dense (value dens * 1000) (solid_of (1 / 100) (ConeDecl LR zn H)))) (arr_plus (r_tot s) q)) by (apply good_plus; [apply good_zeros|assumption]).
  assert (HB : holds_built L 0 (mkbuilt false (together nothing (dense (value dens * 1000) (solid_of (1 / 100) (ConeDecl LR zn H)))) (dense (value dens * 1000) (solid_of (1 / 100) (ConeDecl LR zn H))) true) (mkregs (arr_plus (r_tot s) q) q (r_fac s) (Some "cone"%string))).
  { split; cbn [b_total b_work b_inch b_named r_tot r_wrk r_fac r_shape]; [assumption|assumption|reflexivity|now split]. }
  match goal with |- context [mpc_loop stz fs fp L ls ?n (0 + 5) ?s1] => destruct (run_end stz fs fp L 0 ls (0 + 5) s1 _ n rest S' ltac:(cbn [length]; lia) HE HB) as (s' & E2 & [HT _ _ _]) end.
  rewrite E2. cbn [bind]. exists (r_tot s'). split; [reflexivity|].
  intros HM. assert (M1 := g_mom _ _ _ _ HT 0%Z 0%Z ltac:(lia) ltac:(lia)). assert (M2 := HM 0%Z 0%Z ltac:(lia) ltac:(lia)). cbn [b_total] in M1.
  set (m := mom (r_tot s') 0 0) in *. clearbody m. cbv [builds p fold_left mean start b_total b_work b_inch b_named unit_of] in M2. rewrite Z1, Z2, Z3 in M2. cbn [solid_of] in M1, M2. rewrite VZ in M1.
  destruct M1 as (I1 & I2 & -> & (J & BJ & ->) & ->). destruct M2 as (I3 & I4 & -> & (J' & BJ' & ->) & EQ).
  assert (K : forall h ra rb f I, h <> 0%R -> (forall x y z, f x y z = RtoC (/ sqrt (4 * PI))) -> frustum 0 h ra rb f I -> I = RtoC (/ sqrt (4 * PI) * (PI * h * (ra ^ 2 + ra * rb + rb ^ 2) / 3))).
  { intros h ra rb f I Hh Hf B. rewrite RtoC_mult. eapply (reg_unique _ (regular_frustum 0 h ra rb)); [exact B|].
    apply (reg_ext _ (regular_frustum 0 h ra rb) (fun _ _ _ => RtoC (/ sqrt (4 * PI)) * 1)); [intros; rewrite Hf; ring|]. apply (reg_scal _ (regular_frustum 0 h ra rb)). now apply fr_volume. }
  apply K in BJ; [|apply Rgt_not_eq; nra|intros; apply rsolid00]. apply K in BJ'; [|apply Rgt_not_eq; nra|intros; unfold vadd; apply rsolid00]. subst J J'.
  rewrite !Cplus_0_l, <- !RtoC_mult in EQ. apply RtoC_inj in EQ. assert (Hs : (/ sqrt (4 * PI) <> 0)%R) by (apply Rinv_neq_0_compat, Rgt_not_eq, sqrt_lt_R0; assert (HPI := PI_RGT_0); lra).
  apply Rmult_eq_reg_l in EQ; [|lra]. apply Rmult_eq_reg_l in EQ; [|exact Hs]. assert (HPI := PI_RGT_0).
  assert (K2 : (PI * (value H * (1 / 100)) * (value LR * (1 / 100) * (value UR * (1 / 100)) + (value UR * (1 / 100)) ^ 2) = 0)%R) by lra.
  assert (0 < PI * (value H * (1 / 100)) * (value LR * (1 / 100) * (value UR * (1 / 100)) + (value UR * (1 / 100)) ^ 2))%R.
  { apply pos2; [apply pos2; lra|]. assert (0 < value LR * value UR)%R by (now apply pos2). nra. }
  lra.
Qed.
(* the symmetry of the result, for every program *)
Theorem C11_geometry_files : forall steinmetz fs L dg filename filepath parts readable title p rest q, (0 <= dg <= L)%Z ->
  stored fs filename filepath (title :: show_prog p ++ rest) -> part_files fs filepath L dg parts readable ->
  proper_prog parts dg readable start p -> lookahead_ok p rest -> ending rest -> read_mpc steinmetz fs L filename filepath = Ok q -> reality q /\ corners0 q.
Proof.
  intros stz fs L dg fn fp parts rd title p rest q HL HS HP PP LO HE E.
  destruct (C43_program_moments stz fs L dg fn fp parts rd title p rest HL HS HP PP LO HE) as (q' & E' & _ & R1 & R2 & _). rewrite E in E'. injection E' as <-. now split.
Qed.

(* ---- a program as text ---- *)
Definition plain (core : string) : deco := mkdeco "" core None.
Definition n_ (sg : sgn) (i : list nat) (f : option (list nat)) (e : option (sgn * list nat)) : numeral := mknum "" sg i f e "".
Definition example_prog : list stmt :=
  [ Inches (mkdeco "  " " " (Some " lengths in inches"%string));
    Create (plain "") " " (Cylinder (n_ Unsigned [0%nat] None None) (n_ Unsigned [1%nat] (Some [5%nat]) None) (n_ Unsigned [2%nat] None None) (n_ Unsigned [0%nat] None None) (n_ Unsigned [3%nat; 6%nat; 0%nat] None None))
      (n_ Unsigned [2%nat] (Some [7%nat]) None) (Some "0"%string) (n_ Unsigned [0%nat] None None) (n_ Unsigned [0%nat] None None) (n_ Unsigned [0%nat] None None);
    ReadSpec.Add (plain "");
    Rotate (plain "") (mknum " " Unsigned [0%nat] None None "") (n_ Unsigned [9%nat; 0%nat] None None) (n_ Unsigned [0%nat] None None);
    Translate (plain "") (mknum " " Unsigned [1%nat] None None "") (n_ Unsigned [0%nat] None None) (n_ Minus [] (Some [5%nat]) (Some (Unsigned, [1%nat])));
    ReadSpec.Add (plain "") ].
Definition example_lines : list string :=
  ["  inchin % lengths in inches"; "create cylinder"; "0,1.5,2,0,360"; "2.7,0"; "0,0,0"; "add"; "rotate 0,90,0"; "translate 1,0,-.5e1"; "add"]%string.
Example example_text : show_prog example_prog = example_lines. Proof. vm_compute. reflexivity. Qed.
Ltac num_ok := unfold proper_num; cbn; repeat split; try discriminate; repeat constructor; try lia; try discriminate.
Example example_proper dg : (0 <= dg)%Z -> proper_prog (fun _ => nothing) dg no_parts start example_prog.
Proof.
  intros Hd. unfold example_prog, n_, plain. cbn [proper_prog proper mean start b_named]. unfold proper_deco, blank. cbn [d_pre d_post all_chars].
  repeat match goal with |- _ /\ _ => split end; try reflexivity; try exact I.
  4: { assert (V0 : value (n_ Unsigned [0%nat] None None) = 0%R) by (unfold value; cbn; ring). assert (V1 : value (n_ Unsigned [1%nat] (Some [5%nat]) None) = (15 / 10)%R) by (unfold value; change (IZR 15 * / (10 * 1) = 15 / 10)%R; field).
       assert (V2 : value (n_ Unsigned [2%nat] None None) = 2%R) by (unfold value; cbn; lra). assert (V3 : value (n_ Unsigned [3%nat; 6%nat; 0%nat] None None) = 360%R) by (unfold value; cbn; lra).
       unfold n_ in *. cbn [sizes_ok]. rewrite V0, V1, V2, V3. lra. }
  all: try (cbn [decl_params]; repeat (apply List.Forall_cons; [num_ok|]); apply List.Forall_nil); try num_ok.
Qed.
Example example_ahead rest : lookahead_ok example_prog rest.
Proof.
  unfold example_prog. cbn [lookahead_ok]. split; [|exact I]. intros _ _ _. eexists. split; [reflexivity|]. intros _. eexists. eexists. reflexivity.
Qed.
Example example_reads stz fs : fs "d/p.mpc"%string = Some ("title"%string :: example_lines ++ ["end"; "whatever"]%string) ->
  exists q, read_mpc stz fs 5 "p" "d/" = Ok q /\ has_moments 5 (builds (fun _ => nothing) example_prog) q.
Proof.
  intros H. rewrite <- example_text in H.
  destruct (C43_program_moments stz fs 5 5 "p" "d/" (fun _ => nothing) no_parts "title" example_prog ["end"; "whatever"]%string) as (q & E & _ & _ & _ & M); try lia.
  - right. split; [reflexivity|exact H].
  - intros name [].
  - apply example_proper. lia.
  - apply example_ahead.
  - right. exists (plain ""), ["whatever"%string]. split; [split; reflexivity|reflexivity].
  - now exists q.
Qed.
Example unknown_example : unknown_word "torus". Proof. repeat split; try reflexivity; try discriminate. intros K. cbn in K. repeat (destruct K as [K|K]; [discriminate|]). exact K. Qed.
Print Assumptions C43_program_moments.
Print Assumptions C43_frustum_wrong.
