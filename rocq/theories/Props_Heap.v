(* C65: storage shared between shapes, arrays kept by the caller, and what changes in place (newt/shapes.py, newt/genCAD.py) *)
From Coq Require Import FunctionalExtensionality.
From Verif Require Import ShapeSpec ShapesProofs Props_Shapes.
From Verif Require Import Cplx ShapesHeap.
Open Scope R_scope.

(* every reference held by a shape points to existing storage *)
Definition in_use (st : hstate) : Prop := forall i,
  (o_qlm (h_obj st i) < h_next st)%Z /\ (o_com (h_obj st i) < h_next st)%Z /\ (forall k, o_mesh (h_obj st i) = Some k -> (k < h_next st)%Z).
(* no two shapes share their centre-of-mass array or their mesh (sharing a moment array is allowed) *)
Definition separated (st : hstate) : Prop := in_use st /\ forall i j, i <> j ->
  o_com (h_obj st i) <> o_com (h_obj st j) /\ (forall k, o_mesh (h_obj st i) = Some k -> o_mesh (h_obj st j) <> Some k).

Lemma upd_eq {A} (f : nat -> A) k v : upd f k v k = v. Proof. unfold upd. now rewrite Nat.eqb_refl. Qed.
Lemma upd_ne {A} (f : nat -> A) k v j : j <> k -> upd f k v j = f j. Proof. intros H. unfold upd. now rewrite (proj2 (Nat.eqb_neq j k) H). Qed.
Lemma updz_eq {A} (f : Z -> A) k v : updz f k v k = v. Proof. unfold updz. now rewrite Z.eqb_refl. Qed.
Lemma updz_ne {A} (f : Z -> A) k v j : j <> k -> updz f k v j = f j. Proof. intros H. unfold updz. now rewrite (proj2 (Z.eqb_neq j k) H). Qed.
Lemma map_mesh_ext (f g : Z -> mesh) (m : option Z) : (forall k, m = Some k -> f k = g k) -> option_map f m = option_map g m.
Proof. intros H. destruct m as [k|]; [|reflexivity]. cbn. now rewrite H. Qed.

(* reading back after each primitive action *)
Lemma v_bind_qlm st i q j : in_use st -> view (bind_qlm st i q) j = if Nat.eqb j i then set_qlm (view st i) q else view st j.
Proof.
  intros U. unfold view, bind_qlm. cbn. destruct (Nat.eqb_spec j i) as [->|N].
  - rewrite upd_eq. cbn. now rewrite updz_eq.
  - rewrite (upd_ne (h_obj st)) by assumption. destruct (U j) as (A & _ & _). now rewrite (updz_ne (h_qlm st)) by lia.
Qed.
Lemma v_bind_com st i c j : in_use st -> view (bind_com st i c) j = if Nat.eqb j i then set_com (view st i) c else view st j.
Proof.
  intros U. unfold view, bind_com. cbn. destruct (Nat.eqb_spec j i) as [->|N].
  - rewrite upd_eq. cbn. now rewrite updz_eq.
  - rewrite (upd_ne (h_obj st)) by assumption. destruct (U j) as (_ & A & _). now rewrite (updz_ne (h_com st)) by lia.
Qed.
Lemma v_bind_mesh st i m j : in_use st -> view (bind_mesh st i m) j = if Nat.eqb j i then set_mesh (view st i) (Some m) else view st j.
Proof.
  intros U. unfold view, bind_mesh. cbn. destruct (Nat.eqb_spec j i) as [->|N].
  - rewrite upd_eq. cbn. now rewrite updz_eq.
  - rewrite (upd_ne (h_obj st)) by assumption. destruct (U j) as (_ & _ & A). f_equal. apply map_mesh_ext. intros k Hk. specialize (A k Hk). now rewrite updz_ne by lia.
Qed.
Lemma v_write_com st i c j : separated st -> view (write_com st i c) j = if Nat.eqb j i then set_com (view st i) c else view st j.
Proof.
  intros [U S]. unfold view, write_com. cbn. destruct (Nat.eqb_spec j i) as [->|N].
  - now rewrite updz_eq.
  - destruct (S j i N) as [A _]. now rewrite updz_ne by assumption.
Qed.
Lemma v_put_inner st i b j : view (put_inner st i b) j = if Nat.eqb j i then set_inner (view st i) b else view st j.
Proof. unfold view, put_inner. cbn. destruct (Nat.eqb_spec j i) as [->|N]; [now rewrite upd_eq|now rewrite upd_ne by assumption]. Qed.
Lemma v_put_size st i ms L j : view (put_size st i ms L) j = if Nat.eqb j i then mkshape (s_inner (view st i)) L (s_qlm (view st i)) (s_com (view st i)) ms (s_mesh (view st i)) else view st j.
Proof. unfold view, put_size. cbn. destruct (Nat.eqb_spec j i) as [->|N]; [now rewrite upd_eq|now rewrite upd_ne by assumption]. Qed.

(* what stays true *)
Lemma u_bind_qlm st i q : in_use st -> in_use (bind_qlm st i q).
Proof. intros U j. unfold bind_qlm. cbn. destruct (U j) as (A & B & C). destruct (Nat.eq_dec j i) as [->|N]; [rewrite upd_eq|rewrite upd_ne by assumption]; cbn; (split; [lia|]; split; [lia|]; intros k Hk; specialize (C k Hk); lia). Qed.
Lemma u_bind_com st i c : in_use st -> in_use (bind_com st i c).
Proof. intros U j. unfold bind_com. cbn. destruct (U j) as (A & B & C). destruct (Nat.eq_dec j i) as [->|N]; [rewrite upd_eq|rewrite upd_ne by assumption]; cbn; (split; [lia|]; split; [lia|]; intros k Hk; specialize (C k Hk); lia). Qed.
Lemma u_bind_mesh st i m : in_use st -> in_use (bind_mesh st i m).
Proof. intros U j. unfold bind_mesh. cbn. destruct (U j) as (A & B & C). destruct (Nat.eq_dec j i) as [->|N]; [rewrite upd_eq|rewrite upd_ne by assumption]; cbn; (split; [lia|]; split; [lia|]; intros k Hk). - injection Hk as <-. lia. - specialize (C k Hk); lia. Qed.
Lemma u_write_com st i c : in_use st -> in_use (write_com st i c). Proof. intros U j. exact (U j). Qed.
Lemma u_put_inner st i b : in_use st -> in_use (put_inner st i b).
Proof. intros U j. unfold put_inner. cbn. destruct (U j) as (A & B & C). destruct (Nat.eq_dec j i) as [->|N]; [rewrite upd_eq|rewrite upd_ne by assumption]; cbn; auto. Qed.
Lemma u_put_size st i ms L : in_use st -> in_use (put_size st i ms L).
Proof. intros U j. unfold put_size. cbn. destruct (U j) as (A & B & C). destruct (Nat.eq_dec j i) as [->|N]; [rewrite upd_eq|rewrite upd_ne by assumption]; cbn; auto. Qed.
Ltac sep_solve S U i := 
  let a := fresh "a" in let b := fresh "b" in let N := fresh "N" in intros a b N; cbn;
  destruct (S a b N) as [A B]; destruct (U a) as (Ua1 & Ua2 & Ua3); destruct (U b) as (Ub1 & Ub2 & Ub3);
  destruct (Nat.eq_dec a i) as [Ea|Na]; destruct (Nat.eq_dec b i) as [Eb|Nb]; [congruence| | |]; subst; rewrite ?upd_eq, ?upd_ne by assumption; cbn; split.
Lemma s_bind_qlm st i q : separated st -> separated (bind_qlm st i q).
Proof. intros [U S]. split; [now apply u_bind_qlm|]. sep_solve S U i; auto. Qed.
Lemma s_bind_com st i c : separated st -> separated (bind_com st i c).
Proof. intros [U S]. split; [now apply u_bind_com|]. sep_solve S U i; auto; lia. Qed.
Lemma s_bind_mesh st i m : separated st -> separated (bind_mesh st i m).
Proof.
  intros [U S]. split; [now apply u_bind_mesh|]. sep_solve S U i; auto; intros k Hk.
  - injection Hk as <-. intros E. specialize (Ub3 _ E). lia.
  - intros E. injection E as <-. specialize (Ua3 _ Hk). lia.
Qed.
Lemma s_write_com st i c : separated st -> separated (write_com st i c). Proof. intros H. exact H. Qed.
Lemma s_put_inner st i b : separated st -> separated (put_inner st i b).
Proof. intros [U S]. split; [now apply u_put_inner|]. sep_solve S U i; auto. Qed.
Lemma s_put_size st i ms L : separated st -> separated (put_size st i ms L).
Proof. intros [U S]. split; [now apply u_put_size|]. sep_solve S U i; auto. Qed.
Lemma u_sum_mesh st ms st' k : in_use st -> h_sum_mesh st ms = Ok (st', k) -> in_use st' /\ (h_next st <= h_next st')%Z /\ h_obj st' = h_obj st /\ h_qlm st' = h_qlm st /\ h_com st' = h_com st.
Proof.
  intros U E. unfold h_sum_mesh in E. destruct (sum_mesh _) as [m|]; [|discriminate]. cbn [bind] in E.
  destruct ms as [|[a|] [|b ms]]; injection E as <- <-; cbn; (split; [|split; [lia|auto]]); intros j; destruct (U j) as (A & B & C); cbn; (split; [lia|]; split; [lia|]; intros c Hc; specialize (C c Hc); lia).
Qed.
Lemma meshes_view st names : map (option_map (h_mesh st)) (map (fun j => o_mesh (h_obj st j)) names) = map s_mesh (map (view st) names).
Proof. rewrite !map_map. reflexivity. Qed.
Lemma sum_ref st i rest : separated st ->
  match sum_mesh (map s_mesh (map (view st) (i :: rest))) with
  | Err e => h_sum_mesh st (map (fun j => o_mesh (h_obj st j)) (i :: rest)) = Err e
  | Ok m => exists st' k, h_sum_mesh st (map (fun j => o_mesh (h_obj st j)) (i :: rest)) = Ok (st', k) /\
      (forall j, view (set_ref st' i k) j = if Nat.eqb j i then set_mesh (view st i) (Some m) else view st j) /\ separated (set_ref st' i k)
  end.
Proof.
  intros [U S]. unfold h_sum_mesh. rewrite meshes_view. destruct (sum_mesh _) as [m|e] eqn:E; cbn [bind]; [|reflexivity].
  destruct rest as [|b rest].
  - cbn [map] in E |- *. destruct (o_mesh (h_obj st i)) as [k|] eqn:Ek.
    2:{ exfalso. unfold view in E. rewrite Ek in E. discriminate E. }
    eexists _, k. split; [reflexivity|]. split.
    + intros j. unfold set_ref, view. cbn. destruct (Nat.eqb_spec j i) as [->|N].
      * rewrite upd_eq. cbn. now rewrite updz_eq.
      * rewrite (upd_ne (h_obj st)) by assumption. f_equal. apply map_mesh_ext. intros a Ha. rewrite updz_ne; [reflexivity|]. intros ->. apply (proj2 (S j i N) k Ha). exact Ek.
    + split.
      * intros j. cbn. destruct (U j) as (A & B & C). destruct (U i) as (_ & _ & Ci). destruct (Nat.eq_dec j i) as [->|N]; [rewrite upd_eq|rewrite upd_ne by assumption]; cbn; auto. split; [lia|]. split; [lia|]. intros a Ha. injection Ha as <-. now apply Ci.
      * sep_solve S U i; auto; intros a' Ha'.
        -- injection Ha' as <-. now apply B.
        -- intros E'. injection E' as <-. now apply (B k).
  - exists (mkhs (h_next st + 1)%Z (h_qlm st) (h_com st) (updz (h_mesh st) (h_next st) m) (h_obj st)), (h_next st). split; [cbn [map]; destruct (o_mesh (h_obj st i)); reflexivity|]. split.
    + intros j. exact (v_bind_mesh st i m j U).
    + exact (s_bind_mesh st i m (conj U S)).
Qed.
Lemma names_shapes st l : all_shapes (map (option_map (view st)) l) = option_map (map (view st)) (all_names l).
Proof. induction l as [|[j|] l IH]; [reflexivity| |reflexivity]. cbn. rewrite IH. destruct (all_names l); reflexivity. Qed.
Lemma if_same {A} (b : bool) (x : A) : (if b then x else x) = x. Proof. now destruct b. Qed.

Lemma refine_rotate st i a b g : separated st -> let '(st', e) := h_rotate st i a b g in
  separated st' /\ e = snd (shape_rotate (view st i) a b g) /\ forall j, view st' j = put (view st) i (fst (shape_rotate (view st i) a b g)) j.
Proof.
  intros Sp. unfold h_rotate, shape_rotate. set (q := do q <- s_qlm (view st i); rotate_qlm q a b g).
  assert (S1 := s_bind_qlm st i q Sp). rewrite v_bind_qlm by apply Sp. rewrite Nat.eqb_refl.
  destruct (rotate_mesh (s_mesh (set_qlm (view st i) q)) a b g) as [m|e].
  - assert (S2 := s_bind_mesh _ i m S1). rewrite !v_bind_mesh by apply S1. rewrite Nat.eqb_refl, v_bind_qlm by apply Sp. rewrite Nat.eqb_refl.
    split; [now apply s_bind_com|]. split; [reflexivity|]. intros j. rewrite v_bind_com by apply S2. rewrite !v_bind_mesh by apply S1. rewrite Nat.eqb_refl, !v_bind_qlm by apply Sp. rewrite Nat.eqb_refl. unfold put. cbn [fst].
    destruct (Nat.eqb j i); reflexivity.
  - split; [exact S1|]. split; [reflexivity|]. intros j. now rewrite v_bind_qlm by apply Sp.
Qed.
Lemma refine_translate st i t b : separated st -> let '(st', e) := h_translate st i t b in
  separated st' /\ e = snd (shape_translate (view st i) t b) /\ forall j, view st' j = put (view st) i (fst (shape_translate (view st i) t b)) j.
Proof.
  intros Sp. unfold h_translate, shape_translate. set (c := do c <- s_com (view st i); Ok (vadd c t)).
  assert (S1 := s_write_com st i c Sp). rewrite v_write_com by exact Sp. rewrite Nat.eqb_refl.
  destruct (translate_mesh (s_mesh (set_com (view st i) c)) t) as [m|e].
  2:{ split; [exact S1|]. split; [reflexivity|]. intros j. now rewrite v_write_com by exact Sp. }
  set (st1 := write_com st i c) in *. assert (S2 := s_bind_mesh st1 i m S1). set (st2 := bind_mesh st1 i m) in *.
  assert (V2 : forall j, view st2 j = if Nat.eqb j i then set_mesh (set_com (view st i) c) (Some m) else view st j).
  { intros j. unfold st2. rewrite v_bind_mesh by apply S1. unfold st1. rewrite !v_write_com by exact Sp. rewrite Nat.eqb_refl. now destruct (Nat.eqb j i). }
  assert (V2i : view st2 i = set_mesh (set_com (view st i) c) (Some m)) by (rewrite V2, Nat.eqb_refl; reflexivity).
  cbv zeta. fold st2. rewrite !V2i. set (s2 := set_mesh (set_com (view st i) c) (Some m)) in *.
  destruct (s_inner s2 && b)%bool; [|destruct (s_inner s2 && negb b)%bool; [|destruct (negb (s_inner s2) && negb b)%bool]].
  - split; [now apply s_bind_qlm|]. split; [reflexivity|]. intros j. rewrite v_bind_qlm by apply S2. rewrite (V2 j), ?V2i. unfold put. now destruct (Nat.eqb j i).
  - assert (S3 := s_put_inner st2 i false S2). split; [now apply s_bind_qlm|]. split; [reflexivity|]. intros j. rewrite v_bind_qlm by apply S3. rewrite !v_put_inner, Nat.eqb_refl, (V2 j), ?V2i. unfold put. now destruct (Nat.eqb j i).
  - split; [now apply s_bind_qlm|]. split; [reflexivity|]. intros j. rewrite v_bind_qlm by apply S2. rewrite (V2 j), ?V2i. unfold put. now destruct (Nat.eqb j i).
  - split; [exact S2|]. split; [reflexivity|]. intros j. rewrite V2. reflexivity.
Qed.
Lemma refine_add st i a : separated st -> let '(st', e) := h_add st i a in
  separated st' /\ e = snd (shape_add (view st i) (resolve (view st) a)) /\ forall j, view st' j = put (view st) i (fst (shape_add (view st i) (resolve (view st) a))) j.
Proof.
  intros Sp. assert (Same : forall j, view st j = put (view st) i (view st i) j) by (intros j; unfold put; destruct (Nat.eqb_spec j i) as [->|]; reflexivity).
  unfold h_add, shape_add.
  assert (E : (match resolve (view st) a with ArgList l => match all_shapes l with Some l => Ok (view st i :: l) | None => Err AttributeError end | ArgShape s' => Ok (view st i :: s' :: nil) | ArgOther => Err TypeError end)
    = (do n <- (match a with NList l => match all_names l with Some l => Ok (i :: l) | None => Err AttributeError end | NShape j => Ok (i :: j :: nil) | NOther => Err TypeError end); Ok (map (view st) n))).
  { destruct a as [j|l|]; [reflexivity| |reflexivity]. cbn [resolve]. rewrite names_shapes. destruct (all_names l); reflexivity. }
  rewrite E. clear E.
  assert (Hn : match (match a with NList l => match all_names l with Some l => Ok (i :: l) | None => Err AttributeError end | NShape j => Ok (i :: j :: nil) | NOther => Err TypeError end) with Ok names => exists r, names = i :: r | Err _ => True end).
  { destruct a as [j|l|]; [eauto| |exact I]. destruct (all_names l); eauto. }
  destruct (match a with NList l => match all_names l with Some l => Ok (i :: l) | None => Err AttributeError end | NShape j => Ok (i :: j :: nil) | NOther => Err TypeError end) as [names|e]; cbn [bind]; [|now split].
  destruct Hn as [rest ->]. set (L := map (view st) (i :: rest)). cbv zeta.
  destruct (forallb s_inner L || forallb (fun x => negb (s_inner x)) L)%bool; [|now split].
  set (com := com_div (fold_left com_step L (Ok v0)) (fold_left (fun m x => m + s_mass x) L 0)). set (mt := fold_left (fun m x => m + s_mass x) L 0) in *. set (lm := maxl L).
  assert (Main : forall q', let st1 := put_size (bind_qlm (bind_com st i com) i q') i mt lm in
     let s1 := mkshape (s_inner (view st i)) lm q' com mt (s_mesh (view st i)) in
     let '(st', e) := match h_sum_mesh st1 (map (fun j => o_mesh (h_obj st1 j)) (i :: rest)) with Err e => (st1, Some e) | Ok (st2, m) => (set_ref st2 i m, None) end in
     let r := match sum_mesh (map s_mesh L) with Err e => (s1, Some e) | Ok m => (set_mesh s1 (Some m), None) end in
     separated st' /\ e = snd r /\ forall j, view st' j = put (view st) i (fst r) j).
  { intros q' st1 s1. assert (Sa := s_bind_com st i com Sp). assert (Sb := s_bind_qlm _ i q' Sa). assert (S1 : separated st1) by (apply s_put_size; exact Sb).
    assert (V1 : forall j, view st1 j = if Nat.eqb j i then s1 else view st j).
    { intros j. unfold st1. rewrite v_put_size, !v_bind_qlm by apply Sa. rewrite !v_bind_com by apply Sp. rewrite Nat.eqb_refl. now destruct (Nat.eqb j i). }
    assert (EL : map s_mesh (map (view st1) (i :: rest)) = map s_mesh L).
    { unfold L. rewrite !map_map. apply map_ext. intros j. rewrite V1. destruct (Nat.eqb_spec j i) as [->|]; reflexivity. }
    assert (Q := sum_ref st1 i rest S1). rewrite EL in Q. destruct (sum_mesh (map s_mesh L)) as [m|e].
    - destruct Q as (st' & k & E & V & S'). rewrite E. split; [exact S'|]. split; [reflexivity|]. intros j. rewrite V, !V1, Nat.eqb_refl. unfold put. now destruct (Nat.eqb j i).
    - rewrite Q. split; [exact S1|]. split; [reflexivity|]. intros j. exact (V1 j). }
  destruct (fold_left (qlm_step lm) L (Ok None)) as [q|[]]; try (now split); apply Main.
Qed.
(* one method call *)
Lemma refine_call st o : separated st -> let '(st', e) := h_call st o in let '(i, (s, e')) := call (view st) o in
  separated st' /\ e = e' /\ forall j, view st' j = put (view st) i s j.
Proof.
  intros Sp. destruct o as [i a b g|i t b|i a]; cbn [h_call call].
  - assert (Q := refine_rotate st i a b g Sp). destruct (h_rotate st i a b g) as [st' e], (shape_rotate (view st i) a b g) as [s e']. exact Q.
  - assert (Q := refine_translate st i t b Sp). destruct (h_translate st i t b) as [st' e], (shape_translate (view st i) t b) as [s e']. exact Q.
  - assert (Q := refine_add st i a Sp). destruct (h_add st i a) as [st' e], (shape_add (view st i) (resolve (view st) a)) as [s e']. exact Q.
Qed.

(* ---- C65: programs that only call methods on shapes with storage of their own behave as the value model says ---- *)
Theorem C65_values : forall ops st, separated st ->
  separated (h_run (map HOp ops) st) /\ forall j, view (h_run (map HOp ops) st) j = run ops (view st) j.
Proof.
  induction ops as [|o ops IH]; intros st Sp; [now split|]. cbn [map]. unfold h_run, run in *. cbn [fold_left].
  assert (Q := refine_call st o Sp). cbn [h_step]. unfold step at 2. destruct (h_call st o) as [st' e]. destruct (call (view st) o) as [i [s e']].
  destruct Q as (S' & _ & V). cbn [fst]. replace (put (view st) i s) with (view st'); [exact (IH st' S')|]. now apply functional_extensionality.
Qed.
Theorem C65_exceptions : forall ops o st, separated st ->
  snd (h_call (h_run (map HOp ops) st) o) = snd (snd (call (run ops (view st)) o)).
Proof.
  intros ops o st Sp. destruct (C65_values ops st Sp) as [S' V]. assert (Q := refine_call _ o S').
  replace (view (h_run (map HOp ops) st)) with (run ops (view st)) in Q by (symmetry; now apply functional_extensionality).
  destruct (h_call _ o) as [st' e]. destruct (call _ o) as [i [s e']]. destruct Q as (_ & E & _). exact E.
Qed.
(* hence what the moments say after any history (C45) is also true of the stored shapes *)
Theorem C65_any_history : forall ops st w, separated st -> agrees (view st) w -> agrees (view (h_run (map HOp ops) st)) (fold_left meaning ops w).
Proof.
  intros ops st w Sp A. destruct (C65_values ops st Sp) as [_ V].
  replace (view (h_run (map HOp ops) st)) with (run ops (view st)) by (symmetry; now apply functional_extensionality). now apply C45_any_history.
Qed.
Print Assumptions C65_any_history.

(* ---- what can happen to storage that already exists, one action ---- *)
Lemma sum_mesh_cells st ms st' k : h_sum_mesh st ms = Ok (st', k) -> (h_next st <= h_next st')%Z /\ h_qlm st' = h_qlm st /\ h_com st' = h_com st /\ h_obj st' = h_obj st /\
  forall a, (a < h_next st)%Z -> h_mesh st' a = h_mesh st a \/ (ms = Some a :: nil /\ mset (h_mesh st' a) = mset (h_mesh st a) /\ pmass (h_mesh st' a) = true).
Proof.
  intros E. unfold h_sum_mesh in E. destruct (sum_mesh _) as [m|] eqn:Em; [|discriminate]. cbn [bind] in E.
  destruct ms as [|[b|] [|c ms]]; injection E as <- <-; cbn; (split; [lia|]; repeat (split; [reflexivity|])); intros a Ha; try (left; rewrite updz_ne by lia; reflexivity).
  destruct (Z.eq_dec a b) as [->|N]; [right|left; now rewrite updz_ne by assumption]. rewrite updz_eq.
  cbn in Em. injection Em as <-. now repeat split.
Qed.
Definition adds_nothing (o : hop) (i : nat) : Prop := o = HOp (OAdd i (NList nil)).
(* one action leaves stored arrays and meshes alone, but for three cases *)
Lemma cells st o : (h_next st <= h_next (h_step st o))%Z /\ forall k, (k < h_next st)%Z ->
  h_qlm (h_step st o) k = h_qlm st k /\
  (h_com (h_step st o) k = h_com st k \/
   exists i t b, o = HOp (OTranslate i t b) /\ o_com (h_obj st i) = k /\ h_com (h_step st o) k = do c <- h_com st k; Ok (vadd c t)) /\
  (h_mesh (h_step st o) k = h_mesh st k \/
   ((exists i, (o = HOp (OAdd i (NList nil)) \/ o = HSumMesh (i :: nil)) /\ o_mesh (h_obj st i) = Some k) /\
    mset (h_mesh (h_step st o) k) = mset (h_mesh st k) /\ pmass (h_mesh (h_step st o) k) = true)).
Proof.
  destruct o as [[i a b g|i t b|i a]|l|i j]; cbn [h_step h_call].
  - unfold h_rotate. destruct (rotate_mesh _ a b g) as [m|e]; cbn; (split; [lia|]); intros k Hk; rewrite !updz_ne by lia; auto.
  - unfold h_translate. set (c := do c <- s_com (view st i); Ok (vadd c t)).
    assert (Hc : forall k, updz (h_com st) (o_com (h_obj st i)) c k = h_com st k \/ exists i' t' b', HOp (OTranslate i t b) = HOp (OTranslate i' t' b') /\ o_com (h_obj st i') = k /\ updz (h_com st) (o_com (h_obj st i)) c k = do c0 <- h_com st k; Ok (vadd c0 t')).
    { intros k. destruct (Z.eq_dec k (o_com (h_obj st i))) as [->|N]; [right; exists i, t, b; repeat split; now rewrite updz_eq|left; now rewrite updz_ne by assumption]. }
    destruct (translate_mesh _ t) as [m|e].
    2:{ cbn. split; [lia|]. intros k Hk. split; [reflexivity|]. split; [apply Hc|now left]. }
    cbv zeta. set (inner := s_inner _). destruct (inner && b)%bool; [|destruct (inner && negb b)%bool; [|destruct (negb inner && negb b)%bool]]; cbn; (split; [lia|]); intros k Hk.
    1-4: (split; [rewrite ?updz_ne by lia; reflexivity|]; split; [apply Hc|]; left; now rewrite !updz_ne by lia).
  - unfold h_add.
    set (N := match a with NList l => match all_names l with Some l => Ok (i :: l) | None => Err AttributeError end | NShape j => Ok (i :: j :: nil) | NOther => Err TypeError end).
    assert (Hn : forall n, N = Ok (n :: nil) -> n = i /\ a = NList nil).
    { intros n E. unfold N in E. destruct a as [j|l|]; try discriminate. destruct l as [|[x|] l]; cbn in E; [injection E as <-; auto| |discriminate]. destruct (all_names l); discriminate. }
    clearbody N. destruct N as [names|e]; [|cbn; split; [lia|]; auto].
    destruct (_ || _)%bool; [|cbn; split; [lia|]; auto]. cbv zeta.
    set (com := com_div _ _). set (mt := fold_left _ _ 0). set (lm := maxl _).
    assert (Main : forall q', let st1 := put_size (bind_qlm (bind_com st i com) i q') i mt lm in
       let st' := fst (match h_sum_mesh st1 (map (fun j => o_mesh (h_obj st1 j)) names) with Err e => (st1, Some e) | Ok (st2, m) => (set_ref st2 i m, None) end) in
       (h_next st <= h_next st')%Z /\ forall k, (k < h_next st)%Z -> h_qlm st' k = h_qlm st k /\
        (h_com st' k = h_com st k \/ exists i' t b, HOp (OAdd i a) = HOp (OTranslate i' t b) /\ o_com (h_obj st i') = k /\ h_com st' k = do c <- h_com st k; Ok (vadd c t)) /\
        (h_mesh st' k = h_mesh st k \/ ((exists i', (HOp (OAdd i a) = HOp (OAdd i' (NList nil)) \/ HOp (OAdd i a) = HSumMesh (i' :: nil)) /\ o_mesh (h_obj st i') = Some k) /\ mset (h_mesh st' k) = mset (h_mesh st k) /\ pmass (h_mesh st' k) = true))).
    { intros q' st1. assert (B1 : (h_next st <= h_next st1)%Z) by (cbn; lia).
      assert (C1 : forall k, (k < h_next st)%Z -> h_qlm st1 k = h_qlm st k /\ h_com st1 k = h_com st k /\ h_mesh st1 k = h_mesh st k) by (intros k Hk; cbn; rewrite !updz_ne by lia; auto).
      destruct (h_sum_mesh st1 _) as [[st2 m]|e] eqn:E; cbv zeta; cbn [fst].
      - destruct (sum_mesh_cells _ _ _ _ E) as (B2 & Q2 & O2 & _ & M2). change (h_next (set_ref st2 i m)) with (h_next st2). change (h_qlm (set_ref st2 i m)) with (h_qlm st2). change (h_com (set_ref st2 i m)) with (h_com st2). change (h_mesh (set_ref st2 i m)) with (h_mesh st2).
        split; [lia|]. intros k Hk. rewrite Q2, O2. destruct (C1 k Hk) as (-> & -> & Em). split; [reflexivity|]. split; [now left|].
        destruct (M2 k ltac:(lia)) as [->|(En & M & P)]; [left; exact Em|right]. rewrite M, P, Em. split; [|now split].
        destruct names as [|n [|n' names]]; try discriminate En. destruct (Hn n eq_refl) as [-> ->]. exists i. split; [now left|].
        injection En as En. cbn in En. rewrite !upd_eq in En. cbn in En. rewrite ?upd_eq in En. exact En.
      - split; [lia|]. intros k Hk. destruct (C1 k Hk) as (-> & -> & ->). auto. }
    destruct (fold_left (qlm_step lm) _ (Ok None)) as [q|[]]; try (cbn; split; [lia|]; now auto); apply Main.
  - destruct (h_sum_mesh st _) as [[st' k]|e] eqn:E; [|split; [lia|]; auto].
    destruct (sum_mesh_cells _ _ _ _ E) as (B & Q & O & _ & M). split; [lia|]. intros a Ha. rewrite Q, O. split; [reflexivity|]. split; [now left|].
    destruct (M a Ha) as [->|(El & M1 & M2)]; [now left|right]. split; [|now split]. destruct l as [|i [|j l]]; try discriminate El. injection El as El. exists i. auto.
  - cbn. split; [lia|]. auto.
Qed.
(* arrays of moments are never changed once stored: a caller who keeps s.qlm keeps a snapshot, whatever is done later *)
Theorem C65_moment_arrays_are_snapshots : forall ops st k, (k < h_next st)%Z -> h_qlm (h_run ops st) k = h_qlm st k.
Proof.
  induction ops as [|o ops IH]; intros st k Hk; [reflexivity|]. unfold h_run in *. cbn [fold_left]. destruct (cells st o) as [B C].
  rewrite IH by lia. apply C. exact Hk.
Qed.
Print Assumptions C65_moment_arrays_are_snapshots.

(* ---- centres of mass ---- *)
Lemma next_mono ops : forall st, (h_next st <= h_next (h_run ops st))%Z.
Proof. induction ops as [|o ops IH]; intros st; [cbn; lia|]. unfold h_run in *. cbn [fold_left]. destruct (cells st o) as [B _]. specialize (IH (h_step st o)). lia. Qed.
(* an existing centre-of-mass array changes only when a shape holding it is translated, and then by exactly that vector *)
Theorem C65_com_changes_only_by_translate : forall st o k, (k < h_next st)%Z -> h_com (h_step st o) k <> h_com st k ->
  exists i t b, o = HOp (OTranslate i t b) /\ o_com (h_obj st i) = k /\ h_com (h_step st o) k = do c <- h_com st k; Ok (vadd c t).
Proof. intros st o k Hk Hd. destruct (cells st o) as [_ C]. destruct (C k Hk) as (_ & [E|E] & _); [now elim Hd|exact E]. Qed.
(* the actions that give shape i another centre-of-mass array *)
Definition rebinds_com (i : nat) (o : hop) : Prop :=
  match o with HOp (ORotate j _ _ _) => j = i | HOp (OAdd j _) => j = i | HCopy _ j => j = i | _ => False end.
Lemma objs st o j : (o_com (h_obj (h_step st o) j) = o_com (h_obj st j)) \/
  (rebinds_com j o /\ ((h_next st <= o_com (h_obj (h_step st o) j))%Z \/ exists i, o = HCopy i j /\ h_obj (h_step st o) j = h_obj st i)).
Proof.
  destruct o as [[i a b g|i t b|i a]|l|i i']; cbn [h_step h_call rebinds_com].
  - unfold h_rotate. destruct (rotate_mesh _ a b g) as [m|e]; cbn [fst].
    + destruct (Nat.eq_dec j i) as [->|N]; cbn; [right; split; [reflexivity|left; rewrite upd_eq; cbn; lia]|left; now rewrite !upd_ne by assumption].
    + left. cbn. destruct (Nat.eq_dec j i) as [->|N]; [now rewrite upd_eq|now rewrite upd_ne by assumption].
  - left. unfold h_translate. destruct (translate_mesh _ t) as [m|e]; [|reflexivity].
    cbv zeta. set (inner := s_inner _). destruct (Nat.eq_dec j i) as [->|N]; destruct (inner && b)%bool; [|destruct (inner && negb b)%bool; [|destruct (negb inner && negb b)%bool]| |destruct (inner && negb b)%bool; [|destruct (negb inner && negb b)%bool]]; cbn; rewrite ?upd_eq, ?upd_ne by assumption; cbn; rewrite ?upd_eq, ?upd_ne by assumption; cbn; rewrite ?upd_eq; reflexivity.
  - unfold h_add.
    destruct (match a with NList l => match all_names l with Some l => Ok (i :: l) | None => Err AttributeError end | NShape j => Ok (i :: j :: nil) | NOther => Err TypeError end) as [names|e]; [|now left].
    destruct (_ || _)%bool; [|now left]. cbv zeta.
    set (com := com_div _ _). set (mt := fold_left _ _ 0). set (lm := maxl _).
    assert (Main : forall q', let st1 := put_size (bind_qlm (bind_com st i com) i q') i mt lm in
       let st' := fst (match h_sum_mesh st1 (map (fun j => o_mesh (h_obj st1 j)) names) with Err e => (st1, Some e) | Ok (st2, m) => (set_ref st2 i m, None) end) in
       o_com (h_obj st' j) = o_com (h_obj st j) \/ (i = j /\ ((h_next st <= o_com (h_obj st' j))%Z \/ exists i', HOp (OAdd i a) = HCopy i' j /\ h_obj st' j = h_obj st i'))).
    { intros q' st1. assert (O1 : o_com (h_obj st1 j) = o_com (h_obj st j) \/ (i = j /\ (h_next st <= o_com (h_obj st1 j))%Z)).
      { cbn. destruct (Nat.eq_dec j i) as [->|N]; [right; rewrite !upd_eq; cbn; rewrite ?upd_eq; cbn; rewrite ?upd_eq; cbn; split; [reflexivity|lia]|left; now rewrite !upd_ne by assumption]. }
      destruct (h_sum_mesh st1 _) as [[st2 m]|e] eqn:E; cbv zeta; cbn [fst]; [|tauto].
      destruct (sum_mesh_cells _ _ _ _ E) as (_ & _ & _ & O2 & _).
      replace (o_com (h_obj (set_ref st2 i m) j)) with (o_com (h_obj st1 j)); [tauto|]. cbn [set_ref h_obj]. destruct (Nat.eq_dec j i) as [->|N]; [rewrite upd_eq|rewrite upd_ne by assumption]; rewrite O2; reflexivity. }
    destruct (fold_left (qlm_step lm) _ (Ok None)) as [q|[]]; try (now left); apply Main.
  - left. destruct (h_sum_mesh st _) as [[st' k]|e] eqn:E; [|reflexivity]. destruct (sum_mesh_cells _ _ _ _ E) as (_ & _ & _ & -> & _). reflexivity.
  - cbn. destruct (Nat.eq_dec j i') as [->|N]; [right|left; now rewrite upd_ne by assumption]. split; [reflexivity|right]. exists i. split; [reflexivity|]. apply upd_eq.
Qed.
(* until one of those, a caller who keeps c = s.com holds the live array of the shape *)
Theorem C65_kept_com_is_live : forall ops st i, List.Forall (fun o => ~ rebinds_com i o) ops ->
  s_com (view (h_run ops st) i) = h_com (h_run ops st) (o_com (h_obj st i)).
Proof.
  intros ops st i H. unfold view. cbn [s_com]. f_equal. revert st H. induction ops as [|o ops IH]; intros st H; [reflexivity|]. inversion H as [|o' l H1 H2]; subst.
  unfold h_run in *. cbn [fold_left]. rewrite IH by assumption. destruct (objs st o i) as [E|[E _]]; [exact E|contradiction].
Qed.
Print Assumptions C65_kept_com_is_live.
(* an array no shape holds never changes again *)
Theorem C65_unheld_com_is_frozen : forall ops st k, (k < h_next st)%Z -> (forall i, o_com (h_obj st i) <> k) -> h_com (h_run ops st) k = h_com st k.
Proof.
  induction ops as [|o ops IH]; intros st k Hk H; [reflexivity|]. unfold h_run in *. cbn [fold_left]. destruct (cells st o) as [B C]. destruct (C k Hk) as (_ & Ec & _).
  rewrite IH; [|lia|].
  - destruct Ec as [E|(i & t & b & _ & E & _)]; [exact E|now elim (H i)].
  - intros j. destruct (objs st o j) as [E|[_ [E|(i & _ & E)]]]; [rewrite E; apply H|lia|rewrite E; apply H].
Qed.
(* rotating the shape, or adding to it, leaves the caller with the old centre of mass for good *)
Theorem C65_rotate_detaches_kept_com : forall st i a b g ops, separated st -> s_mesh (view st i) <> None ->
  h_com (h_run (HOp (ORotate i a b g) :: ops) st) (o_com (h_obj st i)) = s_com (view st i).
Proof.
  intros st i a b g ops [U S] Hm. destruct (U i) as (_ & Hk & _). unfold h_run. cbn [fold_left]. destruct (cells st (HOp (ORotate i a b g))) as [B C].
  assert (R := C65_unheld_com_is_frozen ops (h_step st (HOp (ORotate i a b g))) (o_com (h_obj st i))). unfold h_run in R. rewrite R; clear R.
  - destruct (C _ Hk) as (_ & [E|(i' & t & b' & E & _)] & _); [exact E|discriminate E].
  - lia.
  - intros j. destruct (Nat.eq_dec j i) as [->|N].
    + cbn [h_step h_call]. unfold h_rotate. destruct (rotate_mesh _ a b g) as [m|e] eqn:E.
      * cbn. rewrite upd_eq. cbn. lia.
      * exfalso. revert E. rewrite v_bind_qlm by exact U. rewrite Nat.eqb_refl. cbn. destruct (s_mesh (view st i)) eqn:Em; [|now elim Hm]. unfold view in Em. cbn in Em. rewrite Em. discriminate.
    + destruct (objs st (HOp (ORotate i a b g)) j) as [E|[E _]]; [rewrite E; now apply S|cbn in E; now elim N].
Qed.
Theorem C65_add_detaches_kept_com : forall st i a ops, separated st -> snd (h_call st (OAdd i a)) = None ->
  h_com (h_run (HOp (OAdd i a) :: ops) st) (o_com (h_obj st i)) = s_com (view st i).
Proof.
  intros st i a ops [U S] Hs. destruct (U i) as (_ & Hk & _). unfold h_run. cbn [fold_left]. destruct (cells st (HOp (OAdd i a))) as [B C].
  assert (R := C65_unheld_com_is_frozen ops (h_step st (HOp (OAdd i a))) (o_com (h_obj st i))). unfold h_run in R. rewrite R; clear R.
  - destruct (C _ Hk) as (_ & [E|(i' & t & b' & E & _)] & _); [exact E|discriminate E].
  - lia.
  - intros j. destruct (Nat.eq_dec j i) as [->|N].
    + clear B C. cbn [h_step h_call] in *. revert Hs. unfold h_add.
      destruct (match a with NList l => match all_names l with Some l => Ok (i :: l) | None => Err AttributeError end | NShape j => Ok (i :: j :: nil) | NOther => Err TypeError end) as [names|e]; [|discriminate].
      destruct (_ || _)%bool; [|discriminate]. cbv zeta.
      set (com := com_div _ _). set (mt := fold_left _ _ 0). set (lm := maxl _).
      assert (Main : forall q', let st1 := put_size (bind_qlm (bind_com st i com) i q') i mt lm in
         let r := match h_sum_mesh st1 (map (fun j => o_mesh (h_obj st1 j)) names) with Err e => (st1, Some e) | Ok (st2, m) => (set_ref st2 i m, None) end in
         o_com (h_obj (fst r) i) <> o_com (h_obj st i)).
      { intros q' st1. assert (O1 : o_com (h_obj st1 i) = h_next st) by (cbn; rewrite !upd_eq; cbn; rewrite ?upd_eq; reflexivity).
        destruct (h_sum_mesh st1 _) as [[st2 m]|e] eqn:E; cbv zeta; cbn [fst]; [|lia].
        destruct (sum_mesh_cells _ _ _ _ E) as (_ & _ & _ & O2 & _). cbn [set_ref h_obj]. rewrite upd_eq. cbn. rewrite O2. lia. }
      destruct (fold_left (qlm_step lm) _ (Ok None)) as [q|[]]; try discriminate; intros _; apply Main.
    + destruct (objs st (HOp (OAdd i a)) j) as [E|[E _]]; [rewrite E; now apply S|cbn in E; now elim N].
Qed.
Print Assumptions C65_add_detaches_kept_com.

(* ---- meshes ---- *)
(* the solid of a stored mesh never changes; its sign flag can only become True *)
Theorem C65_mesh_solids_are_snapshots : forall ops st k, (k < h_next st)%Z ->
  mset (h_mesh (h_run ops st) k) = mset (h_mesh st k) /\ (pmass (h_mesh st k) = true -> pmass (h_mesh (h_run ops st) k) = true).
Proof.
  induction ops as [|o ops IH]; intros st k Hk; [now split|]. unfold h_run in *. cbn [fold_left]. destruct (cells st o) as [B C]. destruct (C k Hk) as (_ & _ & M).
  destruct (IH (h_step st o) k ltac:(lia)) as [E P]. rewrite E. destruct M as [M|(_ & M1 & M2)]; [rewrite M in *; auto|]. auto.
Qed.
(* and it does so only in sum_mesh([s.mesh]) and s.add([]) *)
Theorem C65_mesh_changes_only_by_singleton_sum : forall st o k, (k < h_next st)%Z -> h_mesh (h_step st o) k <> h_mesh st k ->
  exists i, (o = HOp (OAdd i (NList nil)) \/ o = HSumMesh (i :: nil)) /\ o_mesh (h_obj st i) = Some k.
Proof. intros st o k Hk Hd. destruct (cells st o) as [_ C]. destruct (C k Hk) as (_ & _ & [E|[E _]]); [now elim Hd|exact E]. Qed.
(* drawing a single hole with genCAD.sum_mesh marks it positive for good: it is then drawn as added, not removed *)
Theorem C65_drawing_a_hole_flips_it : forall st i j mi mj, separated st -> i <> j ->
  s_mesh (view st i) = Some mi -> s_mesh (view st j) = Some mj -> pmass mj = false -> snd (h_call st (OAdd i (NShape j))) = None ->
  let straight := view (h_run (HOp (OAdd i (NShape j)) :: nil) st) i in
  let drawn := view (h_run (HSumMesh (j :: nil) :: HOp (OAdd i (NShape j)) :: nil) st) i in
  (exists m1 m2, s_mesh straight = Some m1 /\ s_mesh drawn = Some m2 /\
     (forall v, mset m1 v <-> mset mi v /\ ~ mset mj v) /\ (forall v, mset m2 v <-> mset mi v \/ mset mj v)) /\
  s_qlm drawn = s_qlm straight /\ s_com drawn = s_com straight /\ s_mass drawn = s_mass straight.
Proof.
  intros st i j mi mj Sp Hij Hi Hj Hp Hn. cbv zeta. unfold h_run. cbn [fold_left]. set (m' := mkmesh (mset mj) true).
  assert (Hok : exists k, o_mesh (h_obj st j) = Some k /\ h_mesh st k = mj).
  { unfold view in Hj. cbn in Hj. destruct (o_mesh (h_obj st j)) as [k|]; [|discriminate]. injection Hj as Hj. now exists k. }
  destruct Hok as (k & Ek & Em).
  assert (Es : h_step st (HSumMesh (j :: nil)) = mkhs (h_next st) (h_qlm st) (h_com st) (updz (h_mesh st) k m') (h_obj st)).
  { cbn [h_step map]. unfold h_sum_mesh. rewrite Ek. cbn. rewrite Em. reflexivity. }
  rewrite Es. set (st1 := mkhs _ _ _ _ _). assert (S1 : separated st1) by exact Sp.
  assert (V1 : forall a, view st1 a = if Nat.eqb a j then set_mesh (view st j) (Some m') else view st a).
  { intros a. unfold view, st1. cbn. destruct (Nat.eqb_spec a j) as [->|N]; [rewrite Ek; cbn; now rewrite updz_eq|]. f_equal. apply map_mesh_ext. intros b Hb. rewrite updz_ne; [reflexivity|]. intros ->. exact (proj2 (proj2 Sp a j N) k Hb Ek). }
  assert (Q := refine_call st (OAdd i (NShape j)) Sp). assert (Q1 := refine_call st1 (OAdd i (NShape j)) S1). cbn [h_step].
  destruct (h_call st _) as [sa ea]. destruct (h_call st1 _) as [sb eb]. cbn [snd] in Hn. subst ea. cbn [fst]. cbn [call resolve] in Q, Q1.
  rewrite (V1 i), (V1 j), (proj2 (Nat.eqb_neq i j) Hij), Nat.eqb_refl in Q1.
  destruct (shape_add (view st i) (ArgShape (view st j))) as [s1 e1] eqn:E1. destruct (shape_add (view st i) (ArgShape (set_mesh (view st j) (Some m')))) as [s2 e2] eqn:E2.
  destruct Q as (_ & <- & V). destruct Q1 as (_ & _ & V'). rewrite V, V'. unfold put. rewrite Nat.eqb_refl. clear V V' S1 V1 st1 Es Ek Em k.
  destruct (view st i) as [bi Li qi ci msi mei]. destruct (view st j) as [bj Lj qj cj msj mej]. cbn in Hi, Hj. subst mei mej.
  unfold shape_add in E1, E2. unfold set_mesh in E2. cbn [s_inner s_lmax s_qlm s_com s_mass s_mesh] in E2. cbv zeta in E1, E2.
  set (T1 := mkshape bi Li qi ci msi (Some mi)) in *. 
  set (Ta := mkshape bj Lj qj cj msj (Some mj)) in *. set (Tb := mkshape bj Lj qj cj msj (Some m')) in *.
  assert (F1 : forallb s_inner (T1 :: Tb :: nil) = forallb s_inner (T1 :: Ta :: nil)) by reflexivity.
  assert (F2 : forallb (fun x => negb (s_inner x)) (T1 :: Tb :: nil) = forallb (fun x => negb (s_inner x)) (T1 :: Ta :: nil)) by reflexivity.
  assert (F3 : maxl (T1 :: Tb :: nil) = maxl (T1 :: Ta :: nil)) by reflexivity.
  assert (F4 : fold_left (qlm_step (maxl (T1 :: Ta :: nil))) (T1 :: Tb :: nil) (Ok None) = fold_left (qlm_step (maxl (T1 :: Ta :: nil))) (T1 :: Ta :: nil) (Ok None)) by reflexivity.
  assert (F5 : fold_left com_step (T1 :: Tb :: nil) (Ok v0) = fold_left com_step (T1 :: Ta :: nil) (Ok v0)) by reflexivity.
  assert (F6 : fold_left (fun m x => m + s_mass x) (T1 :: Tb :: nil) 0 = fold_left (fun m x => m + s_mass x) (T1 :: Ta :: nil) 0) by reflexivity.
  rewrite F1, F2, F3, F4, F5, F6 in E2. clear F1 F2 F3 F4 F5 F6.
  assert (G1 : sum_mesh (map s_mesh (T1 :: Ta :: nil)) = Ok (mkmesh (fun v => mset mi v /\ ~ mset mj v) true)) by (cbn; rewrite Hp; reflexivity).
  assert (G2 : sum_mesh (map s_mesh (T1 :: Tb :: nil)) = Ok (mkmesh (fun v => mset mi v \/ mset mj v) true)) by reflexivity.
  rewrite G1 in E1. rewrite G2 in E2. clear G1 G2.
  destruct (_ || _)%bool; [|discriminate E1].
  destruct (fold_left (qlm_step _) _ (Ok None)) as [q|[]]; try discriminate E1; injection E1 as <-; injection E2 as <- <-;
  (split; [eexists _, _; split; [reflexivity|]; split; [reflexivity|]; cbn; tauto|]; repeat split).
Qed.
Print Assumptions C65_drawing_a_hole_flips_it.

(* ---- copy.copy of a shape ---- *)
(* translating the original moves the copy's centre of mass, but neither its moments nor its mesh *)
Theorem C65_shallow_copy_follows_translate : forall st i j t b, in_use st -> i <> j ->
  let c := view (h_run (HCopy i j :: HOp (OTranslate i t b) :: nil) st) j in
  s_com c = (do x <- s_com (view st i); Ok (vadd x t)) /\ s_qlm c = s_qlm (view st i) /\ s_mesh c = s_mesh (view st i) /\ s_inner c = s_inner (view st i) /\ s_mass c = s_mass (view st i).
Proof.
  intros st i j t b U N. cbv zeta. unfold h_run. cbn [fold_left]. set (st1 := h_step st (HCopy i j)).
  assert (Oj : h_obj st1 j = h_obj st i) by (cbn; apply upd_eq). assert (Oi : h_obj st1 i = h_obj st i) by (cbn; now rewrite upd_ne by assumption).
  destruct (U i) as (U1 & U2 & U3). destruct (cells st1 (HOp (OTranslate i t b))) as [_ C].
  assert (O2 : h_obj (h_step st1 (HOp (OTranslate i t b))) j = h_obj st i).
  { rewrite <- Oj. cbn [h_step h_call]. unfold h_translate. destruct (translate_mesh _ t) as [m|e]; [|reflexivity]. cbv zeta. set (inner := s_inner _).
    destruct (inner && b)%bool; [|destruct (inner && negb b)%bool; [|destruct (negb inner && negb b)%bool]]; cbn [fst bind_qlm bind_mesh put_inner write_com h_obj]; rewrite !upd_ne by congruence; reflexivity. }
  unfold view at 1 3 5 7 9. rewrite O2. cbn [s_com s_qlm s_mesh s_inner s_mass]. split; [|split; [|split; [|split; reflexivity]]].
  - cbn [h_step h_call]. unfold h_translate.
    assert (W : h_com (write_com st1 i (do c <- s_com (view st1 i); Ok (vadd c t))) (o_com (h_obj st i)) = do x <- s_com (view st i); Ok (vadd x t)).
    { cbn [write_com h_com]. rewrite Oi, updz_eq. unfold view. rewrite Oi. reflexivity. }
    destruct (translate_mesh _ t) as [m|e]; [|exact W]. cbv zeta. set (inner := s_inner _). destruct (inner && b)%bool; [|destruct (inner && negb b)%bool; [|destruct (negb inner && negb b)%bool]]; exact W.
  - apply (C (o_qlm (h_obj st i)) U1).
  - unfold view. cbn [s_mesh]. apply map_mesh_ext. intros k Hk. destruct (C k (U3 k Hk)) as (_ & _ & [E|((i' & [E|E] & _) & _)]); [exact E|discriminate E|discriminate E].
Qed.
(* rotating the original leaves the copy as it was *)
Theorem C65_shallow_copy_ignores_rotate : forall st i j a b g, in_use st -> i <> j ->
  view (h_run (HCopy i j :: HOp (ORotate i a b g) :: nil) st) j = view st i.
Proof.
  intros st i j a b g U N. unfold h_run. cbn [fold_left]. set (st1 := h_step st (HCopy i j)).
  assert (Oj : h_obj st1 j = h_obj st i) by (cbn; apply upd_eq).
  destruct (U i) as (U1 & U2 & U3). destruct (cells st1 (HOp (ORotate i a b g))) as [_ C].
  assert (O2 : h_obj (h_step st1 (HOp (ORotate i a b g))) j = h_obj st i).
  { rewrite <- Oj. cbn [h_step h_call]. unfold h_rotate. destruct (rotate_mesh _ a b g) as [m|e]; cbn [fst bind_qlm bind_mesh bind_com h_obj]; rewrite !upd_ne by congruence; reflexivity. }
  unfold view. rewrite O2. f_equal.
  - apply (C (o_qlm (h_obj st i)) U1).
  - destruct (C (o_com (h_obj st i)) U2) as (_ & [E|(i' & t & b' & E & _)] & _); [exact E|discriminate E].
  - apply map_mesh_ext. intros k Hk. destruct (C k (U3 k Hk)) as (_ & _ & [E|((i' & [E|E] & _) & _)]); [exact E|discriminate E|discriminate E].
Qed.

(* ---- the hypotheses are met: every store of values has a separated representation ---- *)
Definition start (f : nat -> shape) : hstate :=
  mkhs 0 (fun a => s_qlm (f (Z.to_nat (- a - 1)))) (fun a => s_com (f (Z.to_nat (- a - 1))))
    (fun a => match s_mesh (f (Z.to_nat (- a - 1))) with Some m => m | None => mkmesh (fun _ => False) true end)
    (fun i => mkobj (s_inner (f i)) (s_lmax (f i)) (- Z.of_nat i - 1) (- Z.of_nat i - 1) (s_mass (f i)) (match s_mesh (f i) with Some _ => Some (- Z.of_nat i - 1)%Z | None => None end)).
Theorem C65_any_start : forall f, separated (start f) /\ forall i, view (start f) i = f i.
Proof.
  intros f. split; [split|].
  - intros i. cbn. split; [lia|]. split; [lia|]. intros k Hk. destruct (s_mesh (f i)); [|discriminate]. injection Hk as <-. lia.
  - intros i j N. cbn. split; [lia|]. intros k Hk. destruct (s_mesh (f i)); [|discriminate]. injection Hk as <-. destruct (s_mesh (f j)); [|discriminate]. intros E. injection E as E. lia.
  - intros i. unfold view, start. cbn. assert (X : Z.to_nat (- (- Z.of_nat i - 1) - 1) = i) by lia. rewrite X.
    destruct (s_mesh (f i)) as [m|] eqn:Em; cbn [option_map]; rewrite ?X, ?Em; destruct (f i); cbn in *; subst; reflexivity.
Qed.
(* a 2 kg ball with a 1 kg hole to take out of it: the hypotheses of C65_drawing_a_hole_flips_it *)
Definition a_ball (m : R) : shape := mkshape true 0 (Ok (zeros 0)) (Ok v0) m (Some (mkmesh (fun v => vnorm v <= Rabs m) (if Rlt_dec 0 m then true else false))).
Example C65_case : let st := start (fun i => if Nat.eqb i 0 then a_ball 2 else a_ball (-1)) in
  separated st /\ (exists m, s_mesh (view st 0) = Some m) /\ (exists m, s_mesh (view st 1) = Some m /\ pmass m = false) /\
  snd (h_call st (OAdd 0 (NShape 1))) = None /\
  s_com (view (h_run (HCopy 0 1 :: HOp (OTranslate 0 (1, 0, 0) true) :: nil) st) 1) = Ok (1, 0, 0).
Proof.
  cbv zeta. set (st := start _). destruct (C65_any_start (fun i => if Nat.eqb i 0 then a_ball 2 else a_ball (-1))) as [Sp V]. fold st in Sp, V.
  split; [exact Sp|]. rewrite !V. cbn [Nat.eqb]. split; [eexists; reflexivity|]. split; [eexists; split; [reflexivity|]; cbn; destruct (Rlt_dec 0 (-1)); [lra|reflexivity]|]. split.
  - assert (Q := C65_exceptions nil (OAdd 0 (NShape 1)) st Sp). cbn [map h_run fold_left run] in Q. unfold h_run, run in Q. cbn [fold_left] in Q. rewrite Q. cbn [call resolve].
    rewrite !V. reflexivity.
  - destruct (C65_shallow_copy_follows_translate st 0 1 (1, 0, 0) true (proj1 Sp) ltac:(discriminate)) as [E _]. rewrite E, V. cbn. f_equal. apply vec3; ring.
Qed.
