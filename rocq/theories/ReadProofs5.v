(* Proofs about read_multiFor.py: one pass of the loop for each statement *)
From Verif Require Import ReadSpec ReadProofs ReadProofs4.
From Coq Require Import List ZArith Reals Lia Lra Bool.
From Verif Require Import Cplx.
Import ListNotations.

Section step.
Variable steinmetz : Z -> R -> R -> R -> res marr.
Variable fs : files.
Variable filepath : string.
Variable L : Z.
Variable lines : list string.
Notation step := (mpc_step steinmetz fs filepath L lines).
Lemma item_at {A} (l : list A) i x : nth_error l i = Some x -> item l i = Ok x.
Proof. unfold item. now intros ->. Qed.
Ltac letters := first [reflexivity | assumption | solve [apply show_list_other; [reflexivity|discriminate|assumption]]
  | rewrite all_app; cbn [all_chars]; first [rewrite show_list_other by (reflexivity || discriminate || assumption); reflexivity
      | rewrite show_other by (reflexivity || assumption); reflexivity]].
Ltac gone x := rewrite (absent x) by letters.
Ltac begin H := unfold mpc_step; rewrite (item_at _ _ _ H); cbn [bind]; rewrite bare by letters.
Lemma step_rotate k s d a b c q : nth_error lines (1 + k) = Some (decorate d ("rotate" ++ show_list [a; b; c])) -> proper_deco d -> List.Forall proper_num [a; b; c] -> r_shape s <> None ->
  rotate_qlm (r_wrk s) (radians (value a)) (radians (value b)) (radians (value c)) = Ok q ->
  step k s = Ok (Continue (k + 1) (mkregs (r_tot s) q (r_fac s) (r_shape s))).
Proof.
  intros H D F N E. begin H. gone "c"%char. rewrite (present "rotate"). rewrite (taken "r" "otate" "o") by letters. cbn [bind].
  destruct D as [D1 D2]. rewrite floats_show by (solve [assumption | discriminate]). cbn [bind map].
  unfold ReadMulti.bound. destruct (r_shape s); [|now destruct N]. cbn [bind fscale map to_vec item nth_error].
  unfold radians in E. replace (value a * (PI / 180))%R with (value a * PI / 180)%R by field. replace (value b * (PI / 180))%R with (value b * PI / 180)%R by field.
  replace (value c * (PI / 180))%R with (value c * PI / 180)%R by field. now rewrite E.
Qed.
Lemma step_translate k s d a b c : nth_error lines (1 + k) = Some (decorate d ("translate" ++ show_list [a; b; c])) -> proper_deco d -> List.Forall proper_num [a; b; c] -> r_shape s <> None ->
  step k s = Ok (Continue (k + 1) (mkregs (r_tot s) (translate_qlm (r_wrk s) (value a * r_fac s, value b * r_fac s, value c * r_fac s)%R) (r_fac s) (r_shape s))).
Proof.
  intros H D F N. begin H. gone "c"%char. gone "o"%char. rewrite (present "translate"). rewrite (taken "t" "ranslate" "a") by letters.
  unfold ReadMulti.bound. destruct (r_shape s) eqn:ES; [|now destruct N]. cbn [bind].
  destruct D as [D1 D2]. rewrite floats_show by (solve [assumption | discriminate]). reflexivity.
Qed.
Lemma step_add k s d : nth_error lines (1 + k) = Some (decorate d "add") -> proper_deco d -> r_shape s <> None ->
  step k s = Ok (Continue (k + 1) (mkregs (arr_plus (r_tot s) (r_wrk s)) (r_wrk s) (r_fac s) (r_shape s))).
Proof.
  intros H D N. begin H. gone "c"%char. gone "o"%char. gone "t"%char. rewrite present0. unfold ReadMulti.bound. destruct (r_shape s) eqn:ES; [|now destruct N]. reflexivity.
Qed.
Lemma step_cmin k s d : nth_error lines (1 + k) = Some (decorate d "cmin") -> proper_deco d ->
  step k s = Ok (Continue (k + 1) (mkregs (r_tot s) (r_wrk s) (1 / 100) (r_shape s))).
Proof. intros H D. begin H. do 3 gone "r"%char. gone "a"%char. now rewrite present0. Qed.
Lemma step_inchin k s d : nth_error lines (1 + k) = Some (decorate d "inchin") -> proper_deco d ->
  step k s = Ok (Continue (k + 1) (mkregs (r_tot s) (r_wrk s) (254 / 10000) (r_shape s))).
Proof. intros H D. begin H. do 3 gone "r"%char. gone "a"%char. gone "m"%char. now rewrite present0. Qed.
Lemma step_nsteps k s d n : nth_error lines (1 + k) = Some (decorate d ("nsteps " ++ show n)) -> proper_deco d -> proper_num n -> step k s = Ok (Continue (k + 1) s).
Proof.
  intros H D F. begin H. gone "c"%char. gone "o"%char. gone "a"%char. gone "a"%char. gone "c"%char. gone "i"%char.
  change ("nsteps " ++ show n)%string with ("nsteps" ++ (" " ++ show n))%string. now rewrite (present "nsteps").
Qed.
Lemma step_zero k s d : nth_error lines (1 + k) = Some (decorate d "zeroqlm") -> proper_deco d ->
  step k s = Ok (Continue (k + 1) (mkregs (mkarr (deg (r_tot s)) (fun i j => at_ (r_tot s) i j * 0)%C) (r_wrk s) (r_fac s) (r_shape s))).
Proof. intros H D. begin H. gone "c"%char. do 2 gone "t"%char. gone "a"%char. gone "c"%char. gone "i"%char. gone "n"%char. gone "a"%char. now rewrite present0. Qed.
Lemma step_get k s d : nth_error lines (1 + k) = Some (decorate d "gettotal") -> proper_deco d ->
  step k s = Ok (Continue (k + 1) (mkregs (r_tot s) (r_tot s) (r_fac s) (Some "Total"%string))).
Proof. intros H D. begin H. gone "c"%char. do 2 gone "r"%char. gone "d"%char. do 2 gone "c"%char. gone "n"%char. gone "d"%char. gone "z"%char. now rewrite present0. Qed.
Lemma step_put k s d : nth_error lines (1 + k) = Some (decorate d "puttotal") -> proper_deco d ->
  step k s = Ok (Continue (k + 1) (mkregs (r_wrk s) (r_wrk s) (r_fac s) (Some "Working"%string))).
Proof. intros H D. begin H. gone "c"%char. do 2 gone "r"%char. gone "d"%char. do 2 gone "c"%char. gone "n"%char. gone "d"%char. gone "z"%char. gone "g"%char. now rewrite present0. Qed.
Lemma step_remark k s d : nth_error lines (1 + k) = Some (decorate d "") -> proper_deco d -> step k s = Ok (Continue (k + 1) s).
Proof. intros H D. begin H. gone "c"%char. do 2 gone "r"%char. gone "d"%char. do 2 gone "c"%char. gone "n"%char. gone "d"%char. gone "z"%char. gone "g"%char. gone "p"%char. now gone "n"%char. Qed.
Lemma step_end k s d : nth_error lines (1 + k) = Some (decorate d "end") -> proper_deco d -> step k s = Ok (Break s).
Proof. intros H D. begin H. gone "c"%char. do 2 gone "r"%char. gone "a"%char. do 2 gone "c"%char. gone "s"%char. gone "l"%char. gone "z"%char. gone "g"%char. gone "p"%char. now rewrite present0. Qed.
(* load *)
Lemma gone_load kw d name : proper_deco d -> ink kw -> kw <> ""%string -> contains kw "load" = false -> contains kw name = false -> contains kw (d_pre d ++ ("load " ++ name) ++ d_post d) = false.
Proof.
  intros [D1 D2] K N E1 E2. rewrite contains_lead, contains_trail by assumption. change ("load " ++ name)%string with ("load" ++ String " " name)%string.
  rewrite contains_gap by (assumption || reflexivity). now rewrite E1, E2.
Qed.
Lemma step_load k s d name q : nth_error lines (1 + k) = Some (decorate d ("load " ++ name)) -> proper_deco d -> loadable name ->
  read_gsq fs name (replace "mpc" "mom" filepath) = Ok q -> deg q = deg (r_wrk s) ->
  step k s = Ok (Continue (k + 1) (mkregs (r_tot s) q (r_fac s) (Some name))).
Proof.
  intros H D [S Hk] E Ed. unfold mpc_step; rewrite (item_at _ _ _ H); cbn [bind].
  assert (P : all_chars (other "%") ("load " ++ name) = true). { rewrite all_app. rewrite (contains_one "%" name); [reflexivity|]. apply Hk. cbn. tauto. }
  rewrite bare by assumption.
  rewrite !gone_load by (assumption || reflexivity || discriminate || (apply Hk; cbn; tauto)).
  change ("load " ++ name)%string with ("load" ++ String " " name)%string at 1. rewrite (present "load").
  unfold split1. destruct D as [D1 D2]. rewrite app_assoc_s. rewrite (after_first "l" "oad ") by now apply isws_other.
  cbn [bind]. rewrite before_absent.
  - cbn [bind]. rewrite strip_trail, S by assumption. rewrite E. cbn [bind]. rewrite Ed, Z.eqb_refl. reflexivity.
  - change "load "%string with ("load" ++ " ")%string. apply contains_longer. rewrite contains_trail by (reflexivity || discriminate || assumption). apply Hk. cbn. tauto.
Qed.
(* create *)
Lemma name_ink s : ink (decl_name s) /\ decl_name s <> ""%string /\ all_chars (other "%") (decl_name s) = true.
Proof. destruct s; (split; [reflexivity|split; [discriminate|reflexivity]]). Qed.
Lemma name_no_create s : contains "create" (decl_name s) = false.
Proof. destruct s; reflexivity. Qed.
Lemma create_line d gap sd : proper_deco d -> blank gap ->
  before "%" (decorate d ("create" ++ gap ++ decl_name sd)) = (d_pre d ++ ("create" ++ gap ++ decl_name sd) ++ d_post d)%string /\
  contains "create" (d_pre d ++ ("create" ++ gap ++ decl_name sd) ++ d_post d) = true /\
  (do r <- split1 "create" (d_pre d ++ ("create" ++ gap ++ decl_name sd) ++ d_post d); item (words r) 0) = Ok (decl_name sd).
Proof.
  intros D G. destruct (name_ink sd) as (I1 & I2 & I3). split; [|split].
  - apply bare; [assumption|]. rewrite !all_app, I3, (isws_other "%" gap) by (reflexivity || assumption). reflexivity.
  - apply (present "create").
  - destruct D as [D1 D2]. unfold split1. rewrite !app_assoc_s. rewrite (after_first "c" "reate") by now apply isws_other. cbn [bind].
    rewrite before_absent; [now rewrite words_1|].
    rewrite contains_lead, contains_trail by (reflexivity || discriminate || assumption). apply name_no_create.
Qed.
Lemma step_create k s d gap sd pl dl xl x y z q : nth_error lines (1 + k) = Some (decorate d ("create" ++ gap ++ decl_name sd)) ->
  nth_error lines (2 + k) = Some pl -> nth_error lines (3 + k) = Some dl -> nth_error lines (4 + k) = Some xl ->
  proper_deco d -> blank gap -> create steinmetz L (r_fac s) (decl_name sd) (Ok pl) (Ok dl) = Some (Ok q) -> floats xl = Ok [x; y; z] ->
  let v := (x * r_fac s, y * r_fac s, z * r_fac s)%R in
  let at_origin := all0 [x * r_fac s; y * r_fac s; z * r_fac s]%R in
  (at_origin = false \/ exists l, nth_error lines (5 + k) = Some l /\ contains "add" l = false) ->
  step k s = Ok (Continue (k + 4) (mkregs (r_tot s) (translate_qlm q v) (r_fac s) (Some (decl_name sd)))).
Proof.
  intros H1 H2 H3 H4 D G E F v o O. unfold mpc_step; rewrite (item_at _ _ _ H1); cbn [bind]. destruct (create_line d gap sd D G) as (B1 & B2 & B3).
  rewrite B1, B2. destruct (split1 "create" _) as [r|]; [|discriminate]. cbn [bind] in B3 |- *. rewrite B3. cbn [bind].
  rewrite (item_at _ _ _ H2), (item_at _ _ _ H3), (item_at _ _ _ H4), E. cbn [bind]. rewrite F. cbn [bind fscale map]. fold o.
  destruct o eqn:Eo.
  - destruct O as [O|(l & Hl & O)]; [discriminate|]. rewrite (item_at _ _ _ Hl). cbn [bind]. rewrite O. cbn [to_vec item nth_error bind]. now replace (k + 3 + 1)%nat with (k + 4)%nat by lia.
  - cbn [bind to_vec item nth_error]. now replace (k + 3 + 1)%nat with (k + 4)%nat by lia.
Qed.
Lemma step_create_add k s d gap sd pl dl xl x y z q l : nth_error lines (1 + k) = Some (decorate d ("create" ++ gap ++ decl_name sd)) ->
  nth_error lines (2 + k) = Some pl -> nth_error lines (3 + k) = Some dl -> nth_error lines (4 + k) = Some xl ->
  proper_deco d -> blank gap -> create steinmetz L (r_fac s) (decl_name sd) (Ok pl) (Ok dl) = Some (Ok q) -> floats xl = Ok [x; y; z] ->
  all0 [x * r_fac s; y * r_fac s; z * r_fac s]%R = true -> nth_error lines (5 + k) = Some l -> contains "add" l = true ->
  step k s = Ok (Continue (k + 5) (mkregs (arr_plus (r_tot s) q) q (r_fac s) (Some (decl_name sd)))).
Proof.
  intros H1 H2 H3 H4 D G E F o Hl O. unfold mpc_step; rewrite (item_at _ _ _ H1); cbn [bind]. destruct (create_line d gap sd D G) as (B1 & B2 & B3).
  rewrite B1, B2. destruct (split1 "create" _) as [r|]; [|discriminate]. cbn [bind] in B3 |- *. rewrite B3. cbn [bind].
  rewrite (item_at _ _ _ H2), (item_at _ _ _ H3), (item_at _ _ _ H4), E. cbn [bind]. rewrite F. cbn [bind fscale map]. rewrite o.
  rewrite (item_at _ _ _ Hl). cbn [bind]. rewrite O. now replace (k + 3 + 1 + 1)%nat with (k + 5)%nat by lia.
Qed.
(* the working part before there is one *)
Lemma nopart_rotate k s d a b c : nth_error lines (1 + k) = Some (decorate d ("rotate" ++ show_list [a; b; c])) -> proper_deco d -> List.Forall proper_num [a; b; c] -> r_shape s = None ->
  step k s = Err UnboundLocal.
Proof.
  intros H D F N. begin H. gone "c"%char. rewrite (present "rotate"). rewrite (taken "r" "otate" "o") by letters. cbn [bind].
  destruct D as [D1 D2]. rewrite floats_show by (solve [assumption | discriminate]). unfold ReadMulti.bound. now rewrite N.
Qed.
Lemma nopart_translate k s d a b c : nth_error lines (1 + k) = Some (decorate d ("translate" ++ show_list [a; b; c])) -> proper_deco d -> List.Forall proper_num [a; b; c] -> r_shape s = None ->
  step k s = Err UnboundLocal.
Proof. intros H D F N. begin H. gone "c"%char. gone "o"%char. rewrite (present "translate"). unfold ReadMulti.bound. now rewrite N. Qed.
Lemma nopart_add k s d : nth_error lines (1 + k) = Some (decorate d "add") -> proper_deco d -> r_shape s = None -> step k s = Err UnboundLocal.
Proof. intros H D N. begin H. gone "c"%char. gone "o"%char. gone "t"%char. rewrite present0. unfold ReadMulti.bound. now rewrite N. Qed.
(* a create whose branch fails *)
Lemma fail_create k s d gap sd pl dl e : nth_error lines (1 + k) = Some (decorate d ("create" ++ gap ++ decl_name sd)) ->
  item lines (2 + k) = pl -> item lines (3 + k) = dl -> proper_deco d -> blank gap -> create steinmetz L (r_fac s) (decl_name sd) pl dl = Some (Err e) -> step k s = Err e.
Proof.
  intros H1 H2 H3 D G E. unfold mpc_step; rewrite (item_at _ _ _ H1); cbn [bind]. destruct (create_line d gap sd D G) as (B1 & B2 & B3).
  rewrite B1, B2. destruct (split1 "create" _) as [r|]; [|discriminate]. cbn [bind] in B3 |- *. rewrite B3. cbn [bind]. rewrite H2, H3, E. reflexivity.
Qed.
(* a part at the origin with no line after it *)
Lemma fail_last k s d gap sd pl dl xl x y z q : nth_error lines (1 + k) = Some (decorate d ("create" ++ gap ++ decl_name sd)) ->
  nth_error lines (2 + k) = Some pl -> nth_error lines (3 + k) = Some dl -> nth_error lines (4 + k) = Some xl ->
  proper_deco d -> blank gap -> create steinmetz L (r_fac s) (decl_name sd) (Ok pl) (Ok dl) = Some (Ok q) -> floats xl = Ok [x; y; z] ->
  all0 [x * r_fac s; y * r_fac s; z * r_fac s]%R = true -> nth_error lines (5 + k) = None -> step k s = Err IndexError.
Proof.
  intros H1 H2 H3 H4 D G E F o Hl. unfold mpc_step; rewrite (item_at _ _ _ H1); cbn [bind]. destruct (create_line d gap sd D G) as (B1 & B2 & B3).
  rewrite B1, B2. destruct (split1 "create" _) as [r|]; [|discriminate]. cbn [bind] in B3 |- *. rewrite B3. cbn [bind].
  rewrite (item_at _ _ _ H2), (item_at _ _ _ H3), (item_at _ _ _ H4), E. cbn [bind]. rewrite F. cbn [bind fscale map]. rewrite o.
  unfold item at 1. rewrite Hl. reflexivity.
Qed.
(* every pass goes forward *)
Lemma skip_forward n k k' : skip_unknown lines n k = Ok k' -> (k <= k')%nat.
Proof.
  revert k. induction n as [|n IH]; intros k E; cbn [skip_unknown] in E; [injection E as <-; lia|]. destruct (item lines (k + 2)) as [l|]; cbn [bind] in E; [|discriminate].
  destruct (_ && _)%bool; [apply IH in E; lia|injection E as <-; lia].
Qed.
Lemma step_forward k s k' s' : step k s = Ok (Continue k' s') -> (k < k')%nat.
Proof.
  unfold mpc_step. intros E.
  repeat match type of E with
  | Ok (Continue _ _) = Ok (Continue _ _) => injection E as <- <-; lia
  | Ok (Break _) = _ => discriminate E
  | Err _ = _ => discriminate E
  | (do x <- skip_unknown lines ?n ?j; _) = _ => let F := fresh "F" in destruct (skip_unknown lines n j) as [j'|] eqn:F; cbn [bind] in E; [apply skip_forward in F; injection E as <- <-; lia|discriminate E]
  | (do x <- ?r; _) = _ => destruct r; cbn [bind] in E; [|discriminate E]
  | (if ?b then _ else _) = _ => destruct b
  | (let '(_, _) := ?p in _) = _ => destruct p
  | match ?o with Some _ => _ | None => _ end = _ => destruct o
  end.
Qed.
End step.
