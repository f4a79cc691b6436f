(* C11 for the file readers: whatever the text, an array that is returned has the reality symmetry *)
From Verif Require Import ReadSpec ReadProofs Props_ACH Props_Qlm Props_Rotations Props_Translations QlmProofs2 TranslationsProofs RotationsProofs2.
From Coq Require Import List ZArith Reals Lia Lra Bool.
From Verif Require Import Cplx.
Import ListNotations.
Open Scope C_scope.

Definition lower_half (L : Z) (q : marr) : Prop := deg q = L /\ forall i j, (j < L \/ L + i < j)%Z -> at_ q i j = 0.
Lemma read_rows_half sc L rows : forall l m q q', (0 <= m <= l)%Z -> lower_half L q -> read_rows sc L rows l m q = Ok q' -> lower_half L q'.
Proof.
  induction rows as [|r rows IH]; intros l m q q' Hm HQ E; cbn [read_rows] in E; [apply Ok_inj in E; now subst|].
  destruct (item (words r) 0) as [a|]; cbn [bind] in E; [|discriminate]. destruct (item (words r) 1) as [b|]; cbn [bind] in E; [|discriminate].
  destruct (pyfloat a) as [x|]; cbn [bind] in E; [|discriminate]. destruct (pyfloat b) as [y|]; cbn [bind] in E; [|discriminate].
  destruct (Z.ltb_spec L l); [discriminate|].
  assert (HQ' : lower_half L (upd q l (L + m) ((x, y) * RtoC (sc l)))).
  { destruct HQ as [Hd HQ]. split; [exact Hd|]. intros i j Hj. rewrite upd_spec. destruct (Z.eqb_spec i l), (Z.eqb_spec j (L + m)); cbn [andb]; try (apply HQ; assumption). lia. }
  destruct (Z.ltb_spec l (m + 1)); apply IH in E; (assumption || lia).
Qed.
Lemma lower_reality L q : (0 <= L)%Z -> lower_half L q -> deg (Arr.reflect q) = L /\ reality (Arr.reflect q) /\ corners0 (Arr.reflect q).
Proof.
  intros HL [Hd HQ]. split; [exact Hd|]. apply (reflect_reality q (fun l m => mom q l m)). intros l m Hl Hm. unfold mom. rewrite Hd.
  destruct (Z.leb_spec 0 m), (Z.leb_spec m l); cbn [andb]; try reflexivity; apply HQ; lia.
Qed.
Theorem C11_any_moment_file : forall fs filename filepath q, (read_gsq fs filename filepath = Ok q \/ read_gbq fs filename filepath = Ok q) ->
  (0 <= deg q)%Z /\ reality q /\ corners0 q.
Proof.
  assert (K : forall sc lines q, read_moments sc lines = Ok q -> (0 <= deg q)%Z /\ reality q /\ corners0 q).
  { intros sc lines q. unfold read_moments. destruct (item lines 0); cbn [bind]; [|discriminate]. destruct (item lines 1) as [l1|]; cbn [bind]; [|discriminate].
    destruct (item (words l1) 0) as [w|]; cbn [bind]; [|discriminate]. destruct (pyint w) as [L|]; cbn [bind]; [|discriminate]. destruct (Z.ltb_spec L 0); [discriminate|].
    destruct (read_rows sc L (skipn 9 lines) 0 0 (zeros L)) as [q0|] eqn:E; cbn [bind]; [|discriminate]. intros E'. apply Ok_inj in E'. subst q.
    apply read_rows_half in E; [|lia|split; [reflexivity|intros; reflexivity]]. destruct (lower_reality L q0 H E) as (D & R1 & R2). rewrite D. now split. }
  intros fs fn fp q [E|E]; unfold read_gsq, read_gbq in E; destruct (open_ _ _ fn fp); cbn [bind] in E; try discriminate; apply K in E; exact E.
Qed.

Definition sym (L : Z) (q : marr) : Prop := deg q = L /\ reality q /\ corners0 q.
Lemma sym_plus L a b : sym L a -> sym L b -> sym L (arr_plus a b).
Proof.
  intros (A1 & A2 & A3) (B1 & B2 & B3). assert (E : forall l m, mom (arr_plus a b) l m = mom a l m + mom b l m) by (intros; unfold mom, arr_plus; cbn [deg at_]; now rewrite A1, B1).
  split; [exact A1|]. split; intros l m Hl Hm; cbn [deg arr_plus] in Hl, Hm; rewrite !E.
  - rewrite A2, B2 by (rewrite ?B1, ?A1 in *; lia). rewrite Cconj_plus. ring.
  - rewrite A3, B3 by (rewrite ?B1, ?A1 in *; lia). ring.
Qed.
Lemma sym_minus L a b : sym L a -> sym L b -> sym L (arr_minus a b).
Proof.
  intros (A1 & A2 & A3) (B1 & B2 & B3). assert (E : forall l m, mom (arr_minus a b) l m = mom a l m - mom b l m) by (intros; unfold mom, arr_minus; cbn [deg at_]; now rewrite A1, B1).
  split; [exact A1|]. split; intros l m Hl Hm; cbn [deg arr_minus] in Hl, Hm; rewrite !E.
  - rewrite A2, B2 by (rewrite ?B1, ?A1 in *; lia). unfold Cminus. rewrite Cconj_plus, Cconj_opp. ring.
  - rewrite A3, B3 by (rewrite ?B1, ?A1 in *; lia). ring.
Qed.
Lemma sym_zeros L : sym L (zeros L).
Proof. split; [reflexivity|]. split; intros l m _ _; unfold mom, zeros; cbn [at_]; rewrite ?Cconj_RtoC; ring. Qed.
Lemma sym_times0 L q : sym L q -> sym L (mkarr (deg q) (fun i j => at_ q i j * 0)).
Proof.
  intros (A1 & _). split; [exact A1|]. split; intros l m _ _; unfold mom; cbn [at_ deg]; rewrite !Cmult_0_r, ?Cconj_RtoC; ring.
Qed.
Lemma sym_translate L q v : (0 <= L)%Z -> sym L q -> sym L (translate_qlm q v).
Proof.
  intros HL (A1 & A2 & A3). destruct (translate_qlm_holds q v ltac:(lia) A2 A3) as [E _]. destruct (C11_translated_arrays q v ltac:(lia) A2 A3) as [[R1 R2] _]. now split; [rewrite E|split].
Qed.
Lemma sym_rotate L q a b c q' : (0 <= L)%Z -> sym L q -> rotate_qlm q a b c = Ok q' -> sym L q'.
Proof.
  intros HL (A1 & A2 & A3) E. destruct (rotate_qlm_mom q a b c ltac:(lia)) as (q2 & E2 & Ed & _). assert (E3 := E). rewrite E2 in E3. apply Ok_inj in E3. subst q2.
  destruct (C11_rotated_arrays q a b c q' ltac:(lia) A2 A3 E). split; [congruence|]. now split.
Qed.
Lemma sym_qlm L mass r q : (0 <= L)%Z -> qlm_call L mass r -> r = Ok q -> sym L q.
Proof. intros. now apply (C11_analytic_moments_reality L mass r). Qed.
Section any.
Variable steinmetz : Z -> R -> R -> R -> res marr.
Variable L : Z.
Hypothesis HL : (0 <= L)%Z.
Hypothesis Hst : forall dens r Rad q, steinmetz L dens r Rad = Ok q -> sym L q.
Lemma create_sym u w p dl q : create steinmetz L u w p dl = Some (Ok q) -> sym L q.
Proof.
  unfold create. intros E.
  repeat match type of E with
  | (if (w =? ?k)%string then _ else _) = _ => destruct (w =? k)%string
  end; try discriminate E;
  (match type of E with Some ?x = Some ?y => assert (E' : x = y) by (injection E; intros; assumption); clear E end);
  repeat match type of E' with
  | Err _ = _ => discriminate E'
  | (do x <- ?r; _) = _ => let F := fresh "F" in destruct r eqn:F; cbn [bind] in E'; [|discriminate E']
  | match ?v with nil => _ | cons _ _ => _ end = _ => destruct v; try discriminate E'
  | (let '(_, _) := ?p in _) = _ => destruct p
  | (if ?b then _ else _) = _ => destruct b
  end;
  try (eapply sym_qlm; [exact HL| |exact E']; constructor; fail).
  - apply Ok_inj in E'. subst q. match goal with |- sym L (sphere L ?m ?r) => change (sphere L m r) with (sphere L m 1) end.
    eapply sym_qlm; [exact HL| |reflexivity]. constructor. lra.
  - eapply sym_rotate; [exact HL| |exact E']. apply sym_translate, sym_translate; try exact HL. apply sym_minus; (eapply sym_qlm; [exact HL| |eassumption]; constructor).
  - apply Ok_inj in E'. subst q. apply sym_translate; [exact HL|]. apply sym_minus; (eapply sym_qlm; [exact HL| |eassumption]; constructor).
  - apply Ok_inj in E'. subst q. apply sym_minus; (eapply sym_qlm; [exact HL| |eassumption]; constructor).
  - eapply C11_qlmACH_reality; [exact HL| |exact E']. constructor.
  - eapply sym_rotate; [exact HL| |exact E']. eapply Hst. eassumption.
Qed.
Definition sym_regs (s : regs) : Prop := sym L (r_tot s) /\ sym L (r_wrk s).
Definition sym_next (n : next) : Prop := match n with Continue _ s | Break s => sym_regs s end.
Lemma step_sym fs fp lines k s n : sym_regs s -> mpc_step steinmetz fs fp L lines k s = Ok n -> sym_next n.
Proof.
  intros [HT HW] E. unfold mpc_step in E.
  repeat match type of E with
  | Ok _ = Ok _ => apply Ok_inj in E; subst n; split; cbn [r_tot r_wrk]
  | Err _ = _ => discriminate E
  | (do x <- ?r; _) = _ => let F := fresh "F" in destruct r eqn:F; cbn [bind] in E; [|discriminate E]
  | (if ?b then _ else _) = _ => let F := fresh "F" in destruct b eqn:F
  | (let '(_, _) := ?p in _) = _ => destruct p
  | match ?o with Some _ => _ | None => _ end = _ => let F := fresh "F" in destruct o eqn:F
  end; try assumption.
  all: repeat match goal with
  | H : create _ L _ _ _ _ = Some (Ok _) |- _ => apply create_sym in H
  | H : rotate_qlm (r_wrk _) _ _ _ = Ok _ |- _ => apply (sym_rotate L) in H; [|exact HL|exact HW]
  end; try assumption.
  all: try (apply sym_plus; assumption); try (apply sym_times0; assumption); try (apply sym_translate; assumption).
  all: match goal with H : read_gsq _ _ _ = Ok ?q, N : negb (deg ?q =? _)%Z = false |- _ => destruct (C11_any_moment_file _ _ _ q (or_introl H)) as (_ & R1 & R2);
    apply negb_false_iff, Z.eqb_eq in N; destruct HW as (D & _); split; [congruence|now split] end.
Qed.
Lemma loop_sym fs fp lines n : forall k s s', sym_regs s -> mpc_loop steinmetz fs fp L lines n k s = Ok s' -> sym_regs s'.
Proof.
  induction n as [|n IH]; intros k s s' HS E; cbn [mpc_loop] in E; [apply Ok_inj in E; now subst|]. destruct (k <? _)%nat; [|apply Ok_inj in E; now subst].
  destruct (mpc_step steinmetz fs fp L lines k s) as [x|] eqn:F; cbn [bind] in E; [|discriminate]. apply step_sym in F; [|assumption].
  destruct x as [k2 s2|s2]; cbn [sym_next] in F; [exact (IH _ _ _ F E)|apply Ok_inj in E; now subst].
Qed.
End any.
(* whatever the geometry file says - well formed or not - if read_mpc returns, the array has the symmetry; the only assumption
   is about the numerically integrated steinmetz solid of qlmNum.py, which cylhole uses *)
Theorem C11_any_geometry_file : forall steinmetz fs L filename filepath q,
  (forall dens r Rad q0, steinmetz L dens r Rad = Ok q0 -> deg q0 = L /\ reality q0 /\ corners0 q0) ->
  read_mpc steinmetz fs L filename filepath = Ok q -> deg q = L /\ reality q /\ corners0 q.
Proof.
  intros stz fs L fn fp q HS E. unfold read_mpc in E. destruct (open_ fs ".mpc" fn fp) as [lines|]; cbn [bind] in E; [|discriminate].
  destruct (item lines 0); cbn [bind] in E; [|discriminate]. destruct (Z.ltb_spec L 0); [discriminate|].
  destruct (mpc_loop _ _ _ _ _ _ _ _) as [s'|] eqn:F; cbn [bind] in E; [|discriminate]. apply Ok_inj in E. subst q.
  apply (loop_sym stz L H HS) in F; [apply F|]. split; apply sym_zeros.
Qed.
Print Assumptions C11_any_geometry_file.
