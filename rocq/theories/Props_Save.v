(* C74: what save_shape leaves on disk, for every program that moves, adds and saves shapes. *)
From Coq Require Import String Ascii Lia.
From Verif Require Import QlmProofs7 ShapesProofs Props_Shapes Props_Shapes2 Save.
From Verif Require Import ShapeSpec.
From Verif Require Import Cplx.
Import ListNotations.
Open Scope R_scope.

(* ---- specification ---- *)
(* for each base name: nothing was saved under it, or what was known about the shape when it was last saved under it
   (None: it was an outer shape) *)
Definition notes := string -> option (option known).
Definition note (n : notes) (name : string) (x : option known) : notes := fun m => if String.eqb m name then Some x else n m.
Definition smeaning (x : belief * notes) (c : stmt) : belief * notes :=
  match c with
  | SOp o => (meaning (fst x) o, snd x)
  | SSave i name => (fst x, note (snd x) name (fst x i))
  end.
(* the moment file tells the truth about the distribution *)
Definition file_describes (k : known) (f : moment_file) : Prop :=
  f_title f = "Moment file"%string /\ f_kind f = "Inner moments"%string /\
  (exists q, f_data f = Ok q /\ (k_deg k <= deg q)%Z /\
     forall l m, (0 <= l <= k_deg k)%Z -> (Z.abs m <= l)%Z -> k_body k (fun x y z => rsolid l m (x, y, z)) (mom q l m)) /\
  k_body k (fun _ _ _ => RtoC 1) (RtoC (f_mass f)) /\
  (forall cx cy cz, k_com k = true -> f_com f = Ok (cx, cy, cz) ->
     k_body k (fun x _ _ => RtoC x) (RtoC (f_mass f * cx)) /\ k_body k (fun _ y _ => RtoC y) (RtoC (f_mass f * cy)) /\
     k_body k (fun _ _ z => RtoC z) (RtoC (f_mass f * cz))).
Definition files_agree (fs : files) (n : notes) : Prop := forall name,
  match n name with
  | None => fs (append name ".txt") = None /\ fs (append name ".stl") = None
  | Some x => (exists f, fs (append name ".txt") = Some (Text f) /\
                 match x with Some k => file_describes k f | None => f_title f = "Moment file"%string /\ f_kind f = "Outer moments"%string end) /\
              (exists X, fs (append name ".stl") = Some (Stl X))
  end.

(* ---- file names ---- *)
Lemma las_app a b : list_ascii_of_string (append a b) = (list_ascii_of_string a ++ list_ascii_of_string b)%list.
Proof. induction a as [|c a IH]; [reflexivity|]. cbn. now rewrite IH. Qed.
Lemma append_inj a b c : append a c = append b c -> a = b.
Proof.
  intros H. apply (f_equal list_ascii_of_string) in H. rewrite !las_app in H. apply app_inv_tail in H.
  rewrite <- (string_of_list_ascii_of_string a), <- (string_of_list_ascii_of_string b). now rewrite H.
Qed.
Lemma txt_stl a b : append a ".txt" <> append b ".stl".
Proof.
  intros H. apply (f_equal list_ascii_of_string) in H. rewrite !las_app in H. apply (f_equal (@rev ascii)) in H. rewrite !rev_app_distr in H. cbn in H. discriminate.
Qed.
Lemma write_same fs a c : write fs a c a = Some c.
Proof. unfold write. now rewrite String.eqb_refl. Qed.
Lemma write_other fs a b c : b <> a -> write fs a c b = fs b.
Proof. intros H. unfold write. destruct (String.eqb_spec b a); [contradiction|reflexivity]. Qed.

(* one save *)
Theorem C74_save : forall s name fs m, s_mesh s = Some m ->
  exists fs', save_shape false s name fs = (fs', None) /\
    fs' (append name ".stl") = Some (Stl (mset m)) /\
    fs' (append name ".txt") = Some (Text (mkmf "Moment file" (if s_inner s then "Inner moments" else "Outer moments") (s_mass s) (s_com s) (s_qlm s))) /\
    forall n, n <> append name ".stl" -> n <> append name ".txt" -> fs' n = fs n.
Proof.
  intros s name fs m H. unfold save_shape, save_stl. rewrite H. eexists. split; [reflexivity|]. split; [|split].
  - rewrite write_other by (intros E; symmetry in E; now apply txt_stl in E). apply write_same.
  - rewrite write_same. now destruct (s_inner s).
  - intros n H1 H2. now rewrite !write_other.
Qed.
(* a Shape without a mesh, or a cadquery whose Workplane can be iterated over: nothing is written *)
Theorem C74_nothing_written : forall w s name fs, (s_mesh s = None \/ w = true) ->
  exists e, save_shape w s name fs = (fs, Some e) /\ (e = AttributeError \/ e = TypeError).
Proof.
  intros w s name fs H. unfold save_shape, save_stl. destruct (s_mesh s) as [m|]; [|eexists; split; [reflexivity|now left]].
  destruct H as [H| ->]; [discriminate|]. eexists. split; [reflexivity|now right].
Qed.
Theorem C74_iterable_workplane_saves_nothing : forall cs st fs, snd (frun true cs (st, fs)) = fs.
Proof.
  induction cs as [|c cs IH]; intros st fs; [reflexivity|]. unfold frun in *. cbn [fold_left]. destruct c as [o|i name]; cbn [fstep fst snd]; [apply IH|].
  destruct (C74_nothing_written true (st i) name fs (or_intror eq_refl)) as (e & E & _). rewrite E. apply IH.
Qed.
(* the moves do not lose the mesh *)
Lemma step_mesh st o : (forall i, s_mesh (st i) <> None) -> forall i, s_mesh (step st o i) <> None.
Proof.
  intros H i. unfold step. destruct (call st o) as [j [s x]] eqn:E. unfold put. destruct (Nat.eqb_spec i j) as [->|Hn]; [|apply H].
  destruct o as [k a b g|k t b|k a]; cbn [call] in E; injection E as <- E; specialize (H k).
  - unfold shape_rotate, rotate_mesh in E. cbn [set_qlm s_mesh] in E. destruct (s_mesh (st k)) as [m|]; [|easy]. injection E as <- _. cbn. discriminate.
  - unfold shape_translate, translate_mesh in E. cbn [set_com s_mesh] in E. destruct (s_mesh (st k)) as [m|]; [|easy]. destruct (_ && _)%bool; [|destruct (_ && _)%bool; [|destruct (_ && _)%bool]]; injection E as <- _; cbn; discriminate.
  - unfold shape_add in E. destruct (match resolve st a with ArgShape _ => _ | _ => _ end) as [l|e]; [|injection E as <- _; exact H].
    cbv zeta in E. destruct (_ || _)%bool; [|injection E as <- _; exact H].
    destruct (fold_left (qlm_step _) _ _) as [q|[]]; try (destruct (sum_mesh _) as [m|e]; injection E as <- _; cbn; [discriminate|exact H]). injection E as <- _. exact H.
Qed.
Theorem C74_any_history : forall cs st fs w n, agrees st w -> (forall i, s_mesh (st i) <> None) -> files_agree fs n ->
  let r := frun false cs (st, fs) in let b := fold_left smeaning cs (w, n) in agrees (fst r) (fst b) /\ files_agree (snd r) (snd b).
Proof.
  induction cs as [|c cs IH]; intros st fs w n A M F; [now split|]. unfold frun in *. cbn [fold_left]. destruct c as [o|i name].
  - apply IH; [now apply step_agrees|now apply step_mesh|exact F].
  - cbn [fstep smeaning fst snd]. apply IH; [exact A|exact M|].
    destruct (s_mesh (st i)) as [m|] eqn:Em; [|now apply M in Em].
    destruct (C74_save (st i) name fs m Em) as (fs' & E & S1 & S2 & S3). rewrite E. cbn [fst].
    intros nm. unfold note. destruct (String.eqb_spec nm name) as [->|Hn].
    + split; [|eexists; exact S1]. eexists. split; [exact S2|]. specialize (A i). destruct (w i) as [k|].
      * destruct A as (_ & [D1 D2 (q & Eq & Dq & _ & _ & Hq) D4 D5] & _). rewrite D1. split; [reflexivity|]. split; [reflexivity|]. split; [|split; [exact D4|exact D5]].
        exists q. split; [exact Eq|]. split; [lia|exact Hq].
      * rewrite A. now split.
    + assert (X : forall sf, (sf = ".txt" \/ sf = ".stl")%string -> fs' (append nm sf) = fs (append nm sf)).
      { intros sf Hs. apply S3; intros H; destruct Hs as [-> | ->].
        - now apply txt_stl in H. - apply append_inj in H. contradiction. - apply append_inj in H. contradiction. - symmetry in H. now apply txt_stl in H. }
      rewrite !X by tauto. apply F.
Qed.
(* a file once written does not change until its name is used again *)
Theorem C74_files_stay : forall cs wp st fs name, (forall i nm, In (SSave i nm) cs -> nm <> name) ->
  let r := frun wp cs (st, fs) in snd r (append name ".txt") = fs (append name ".txt") /\ snd r (append name ".stl") = fs (append name ".stl").
Proof.
  induction cs as [|c cs IH]; intros wp st fs name H; [now split|]. unfold frun in *. cbn [fold_left].
  destruct c as [o|i nm]; cbn [fstep fst snd].
  - apply IH. intros i nm Hi. apply (H i). now right.
  - assert (Hn : nm <> name) by (apply (H i); now left).
    destruct (IH wp st (fst (save_shape wp (st i) nm fs)) name) as [A B]; [intros j n' Hj; apply (H j); now right|]. cbv zeta. rewrite A, B.
    destruct (s_mesh (st i)) as [m|] eqn:Em; [destruct wp|].
    + destruct (C74_nothing_written true (st i) nm fs (or_intror eq_refl)) as (e & E & _). rewrite E. now split.
    + destruct (C74_save (st i) nm fs m Em) as (fs' & E & _ & _ & S3). rewrite E. cbn [fst].
      split; apply S3; intros X; try (now apply txt_stl in X); try (symmetry in X; now apply txt_stl in X); apply append_inj in X; congruence.
    + destruct (C74_nothing_written wp (st i) nm fs (or_introl Em)) as (e & E & _). rewrite E. now split.
Qed.
(* a sphere saved, moved, saved again under another name, turned into outer moments and saved over the first name *)
Example C74_case : exists st, let cs := [SSave 0 "a"; SOp (OTranslate 0 (1, 0, 0) true); SSave 0 "b"; SOp (OTranslate 0 (5, 0, 0) false); SSave 0 "a"] in
  let fs := snd (frun false cs (st, no_files)) in
  ((exists f, fs "b.txt"%string = Some (Text f) /\ file_describes (mkknown (shifted (1, 0, 0) (shifted (0, 0, 1) (of_mass 5 (solid_ball 1)))) 4 true) f) /\ (exists f, fs "a.txt"%string = Some (Text f) /\ f_kind f = "Outer moments"%string) /\ fs "c.txt"%string = None)%type.
Proof.
  destruct (C49_Sphere 4 5 1 (0, 0, 1) ltac:(lia) ltac:(lra)) as (s & _ & _ & M & D).
  set (k := mkknown (shifted (0, 0, 1) (of_mass 5 (solid_ball 1))) 4 true).
  exists (fun _ => s). intros cs fs.
  assert (A : agrees (fun _ => s) (fun _ => Some k)). { intros i. split; [apply regular_shifted, regular_of_mass, regular_ball|]. now split. }
  assert (F0 : files_agree no_files (fun _ => None)) by (intros nm; now split).
  destruct (C74_any_history cs (fun _ => s) no_files (fun _ => Some k) (fun _ => None) A (fun _ => M) F0) as [_ G]. fold fs in G.
  split; [|split].
  - destruct (G "b"%string) as [H _]. exact H.
  - destruct (G "a"%string) as [(f & E & _ & H) _]. now exists f.
  - destruct (G "c"%string) as [H _]. exact H.
Qed.
Print Assumptions C74_save.
Print Assumptions C74_nothing_written.
Print Assumptions C74_iterable_workplane_saves_nothing.
Print Assumptions C74_any_history.
Print Assumptions C74_files_stay.
