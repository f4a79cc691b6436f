(* Integration of complex functions, iterated integrals: lemmas for the analytic solids. *)
From Verif Require Export SolidSpec CDeriv.
From Verif Require Import Cplx.
Open Scope C_scope.

Lemma is_CInt_ext f g a b v : (forall t, f t = g t) -> is_CInt f a b v -> is_CInt g a b v.
Proof.
  intros H [H1 H2]. split; [apply (is_RInt_ext (fun t => Re (f t)))|apply (is_RInt_ext (fun t => Im (f t)))]; auto; intros; now rewrite H.
Qed.
Lemma is_CInt_val f a b v w : v = w -> is_CInt f a b v -> is_CInt f a b w.
Proof. now intros <-. Qed.
Lemma is_CInt_unique f a b v w : is_CInt f a b v -> is_CInt f a b w -> v = w.
Proof.
  intros [H1 H2] [H3 H4]. apply (is_RInt_unique (V := R_CompleteNormedModule)) in H1, H2, H3, H4. apply C_eq; congruence.
Qed.
Lemma is_CInt_plus f g a b v w : is_CInt f a b v -> is_CInt g a b w -> is_CInt (fun t => f t + g t) a b (v + w).
Proof. intros [H1 H2] [H3 H4]. split; cbn; now apply (is_RInt_plus (V := R_NormedModule)). Qed.
Lemma is_CInt_scal c f a b v : is_CInt f a b v -> is_CInt (fun t => c * f t) a b (c * v).
Proof.
  intros [H1 H2]. split; cbn.
  - exact (is_RInt_minus (V := R_NormedModule) _ _ _ _ _ _ (is_RInt_scal (V := R_NormedModule) _ _ _ (fst c) _ H1) (is_RInt_scal (V := R_NormedModule) _ _ _ (snd c) _ H2)).
  - exact (is_RInt_plus (V := R_NormedModule) _ _ _ _ _ _ (is_RInt_scal (V := R_NormedModule) _ _ _ (fst c) _ H2) (is_RInt_scal (V := R_NormedModule) _ _ _ (snd c) _ H1)).
Qed.
Lemma is_CInt_scal_r c f a b v : is_CInt f a b v -> is_CInt (fun t => f t * c) a b (v * c).
Proof.
  intros H. apply (is_CInt_ext (fun t => c * f t)); [intros; ring|]. apply (is_CInt_val _ _ _ (c * v)); [ring|]. now apply is_CInt_scal.
Qed.
Lemma is_CInt_conj f a b v : is_CInt f a b v -> is_CInt (fun t => Cconj (f t)) a b (Cconj v).
Proof. intros [H1 H2]. split; cbn; [exact H1|]. exact (is_RInt_opp (V := R_NormedModule) _ _ _ _ H2). Qed.
(* fundamental theorem *)
Lemma is_CInt_ftc (F f : R -> C) a b : (forall t, cder F t (f t)) -> (forall t, exists d, cder f t d) -> is_CInt f a b (F b - F a).
Proof.
  intros HF Hf. split; cbn.
  - apply (is_RInt_derive (V := R_CompleteNormedModule) (fun t => Re (F t)) (fun t => Re (f t))).
    + intros x _. exact (proj1 (HF x)).
    + intros x _. destruct (Hf x) as [d [Hd _]]. apply (ex_derive_continuous (V := R_NormedModule)). now exists (Re d).
  - apply (is_RInt_derive (V := R_CompleteNormedModule) (fun t => Im (F t)) (fun t => Im (f t))).
    + intros x _. exact (proj2 (HF x)).
    + intros x _. destruct (Hf x) as [d [_ Hd]]. apply (ex_derive_continuous (V := R_NormedModule)). now exists (Im d).
Qed.
Lemma is_CInt_const c a b : is_CInt (fun _ => c) a b (c * RtoC (b - a)).
Proof.
  apply (is_CInt_val _ _ _ (c * RtoC b - c * RtoC a)); [rewrite RtoC_minus; ring|].
  apply (is_CInt_ftc (fun t => c * RtoC t)).
  - intros t. apply (cder_val _ _ (c * 1)); [ring|]. apply cder_scal. apply cder_id.
  - intros t. exists 0. apply cder_const.
Qed.
Lemma is_CInt_0 a b : is_CInt (fun _ => 0) a b 0.
Proof. apply (is_CInt_val _ _ _ (0 * RtoC (b - a))); [ring|apply is_CInt_const]. Qed.
Lemma cder_dpid n t : cder (fun t => dp (RtoC t) n) t (dp (RtoC t) (n - 1)).
Proof. apply (cder_val _ _ (1 * dp (RtoC t) (n - 1))); [ring|]. apply (cder_dp (fun t => RtoC t)). apply cder_id. Qed.
Lemma is_CInt_dp n a b : is_CInt (fun t => dp (RtoC t) n) a b (dp (RtoC b) (n + 1) - dp (RtoC a) (n + 1)).
Proof.
  apply (is_CInt_ftc (fun t => dp (RtoC t) (n + 1))).
  - intros t. eapply cder_val; [|apply cder_dpid]. f_equal. ring.
  - intros t. eexists. apply cder_dpid.
Qed.
Lemma is_CInt_zsum a b p q (f : Z -> R -> C) v : (forall k, (p <= k < q)%Z -> is_CInt (f k) a b (v k)) ->
  is_CInt (fun t => zsum p q (fun k => f k t)) a b (zsum p q v).
Proof.
  intros H. destruct (Z_le_gt_dec q p) as [Hpq|Hpq].
  - rewrite zsum_empty by lia. apply (is_CInt_ext (fun _ => 0)); [intros; now rewrite zsum_empty by lia|apply is_CInt_0].
  - assert (G : forall n : nat, (p + Z.of_nat n <= q)%Z -> is_CInt (fun t => zsum p (p + Z.of_nat n) (fun k => f k t)) a b (zsum p (p + Z.of_nat n) v)).
    { induction n as [|n IH]; intros Hn.
      - rewrite zsum_empty by lia. apply (is_CInt_ext (fun _ => 0)); [intros; now rewrite zsum_empty by lia|apply is_CInt_0].
      - replace (p + Z.of_nat (S n))%Z with (p + Z.of_nat n + 1)%Z by lia. rewrite zsum_last by lia.
        apply (is_CInt_ext (fun t => zsum p (p + Z.of_nat n) (fun k => f k t) + f (p + Z.of_nat n)%Z t)); [intros; now rewrite zsum_last by lia|].
        apply is_CInt_plus; [apply IH; lia|apply H; lia]. }
    specialize (G (Z.to_nat (q - p))). replace (p + Z.of_nat (Z.to_nat (q - p)))%Z with q in G by lia. apply G; lia.
Qed.

(* ---- divided powers ------------------------------------------------------- *)
Lemma dp_add (a b : C) n : dp (a + b) n = zsum 0 (n + 1) (fun p => dp a (n - p) * dp b p).
Proof.
  destruct (Z_lt_le_dec n 0) as [Hn|Hn]; [rewrite dp_neg, zsum_empty by lia; reflexivity|].
  pattern n. apply natlike_ind; [| |exact Hn]; clear n Hn.
  - change (0 + 1)%Z with 1%Z. rewrite (zsum_one 0). change (0 - 0)%Z with 0%Z. rewrite !dp_0. ring.
  - intros n0 Hn0 IH. set (n := Z.succ n0). assert (Hn : (0 < n)%Z) by lia. replace n0 with (n - 1)%Z in IH by lia.
    clearbody n. clear n0 Hn0. replace (n - 1 + 1)%Z with n in IH by ring.
    assert (E : RtoC (IZR n) * dp (a + b) n = RtoC (IZR n) * zsum 0 (n + 1) (fun p => dp a (n - p) * dp b p)).
    { rewrite dp_rec, IH. rewrite <- zsum_scal_l. 
      transitivity (zsum 0 (n + 1) (fun p => RtoC (IZR (n - p)) * dp a (n - p) * dp b p) + zsum 0 (n + 1) (fun p => dp a (n - p) * (RtoC (IZR p) * dp b p))).
      - rewrite (zsum_ext 0 (n + 1) _ (fun p => a * (dp a (n - 1 - p) * dp b p))).
        2:{ intros p Hp. rewrite dp_rec. replace (n - p - 1)%Z with (n - 1 - p)%Z by ring. ring. }
        rewrite zsum_last by lia. rewrite (dp_neg a (n - 1 - n)) by lia.
        rewrite (zsum_ext 0 (n + 1) (fun p => dp a (n - p) * (RtoC (IZR p) * dp b p)) (fun p => b * (dp a (n - p) * dp b (p - 1)))).
        2:{ intros p Hp. rewrite dp_rec. ring. }
        rewrite (zsum_first 0 (n + 1)) by lia. rewrite (dp_neg b (0 - 1)) by lia.
        rewrite (zsum_shift (-1) (0 + 1)). change (0 + 1 + -1)%Z with 0%Z. replace (n + 1 + -1)%Z with n by ring.
        rewrite (zsum_ext 0 n _ (fun p => a * (dp a (n - 1 - p) * dp b p) + b * (dp a (n - 1 - p) * dp b p))) by (intros; ring).
        rewrite zsum_plus.
        rewrite (zsum_ext 0 n (fun k => b * (dp a (n - (k - -1)) * dp b (k - -1 - 1))) (fun p => b * (dp a (n - 1 - p) * dp b p))).
        2:{ intros p Hp. replace (n - (p - -1))%Z with (n - 1 - p)%Z by ring. replace (p - -1 - 1)%Z with p by ring. reflexivity. }
        ring.
      - rewrite <- zsum_plus, <- zsum_scal_l. apply zsum_ext. intros p Hp. rewrite minus_IZR, RtoC_minus. ring. }
    apply (f_equal (fun w => w / RtoC (IZR n))) in E.
    assert (Hz : RtoC (IZR n) <> 0) by (apply RtoC_neq0, not_0_IZR; lia).
    transitivity (RtoC (IZR n) * dp (a + b) n / RtoC (IZR n)); [field; assumption|]. rewrite E. field. assumption.
Qed.
Lemma dp_pow (a : C) n : (0 <= n)%Z -> cpow a (Z.to_nat n) = RtoC (zfact n) * dp a n.
Proof. intros. rewrite dp_nonneg by assumption. field. apply zfactC_neq0. Qed.
(* the product of two divided powers of the same quantity *)
Lemma dp_mult a n k : (0 <= n)%Z -> (0 <= k)%Z -> dp a n * dp a k = RtoC (zfact (n + k) / (zfact n * zfact k)) * dp a (n + k).
Proof.
  intros Hn Hk. rewrite !dp_nonneg by lia. rewrite Z2Nat.inj_add, cpow_add by lia.
  assert (H1 := zfact_neq0 n). assert (H2 := zfact_neq0 k). assert (H3 := zfact_neq0 (n + k)).
  rewrite RtoC_div, RtoC_mult by (now apply Rmult_integral_contrapositive). field.
  split; [|split]; now apply RtoC_neq0.
Qed.

(* Beta integral: int_0^P t^c/c! (P-t)^e/e! dt = P^(c+e+1)/(c+e+1)! *)
Lemma cder_dprev P n t : cder (fun t => dp (RtoC (P - t)) n) t (- dp (RtoC (P - t)) (n - 1)).
Proof.
  apply (cder_val _ _ ((RtoC (-1)) * dp (RtoC (P - t)) (n - 1))); [ring|].
  apply (cder_dp (fun t => RtoC (P - t))). split; cbn; auto_derive; auto; lra.
Qed.
Lemma is_CInt_beta P c e : (0 <= e)%Z -> is_CInt (fun t => dp (RtoC t) c * dp (RtoC (P - t)) e) 0 P
   (if (c <? 0)%Z then 0 else dp (RtoC P) (c + e + 1)).
Proof.
  destruct (Z.ltb_spec c 0) as [Hc|Hc].
  { intros _. apply (is_CInt_ext (fun _ => 0)); [intros; rewrite (dp_neg _ c) by lia; ring|apply is_CInt_0]. }
  intros He. revert c Hc. pattern e. apply natlike_ind; [| |exact He]; clear e He.
  - intros c Hc. apply (is_CInt_ext (fun t => dp (RtoC t) c)); [intros; rewrite dp_0; ring|].
    eapply is_CInt_val; [|apply is_CInt_dp]. rewrite (dp_zero (c + 1)) by lia. replace (c + 0 + 1)%Z with (c + 1)%Z by ring. ring.
  - intros e He IH c Hc. specialize (IH (c + 1)%Z ltac:(lia)).
    set (F := fun t => dp (RtoC t) (c + 1) * dp (RtoC (P - t)) (e + 1)).
    assert (G : is_CInt (fun t => dp (RtoC t) c * dp (RtoC (P - t)) (e + 1) - dp (RtoC t) (c + 1) * dp (RtoC (P - t)) e) 0 P (F P - F 0%R)).
    { apply (is_CInt_ftc F).
      - intros t. unfold F. eapply cder_val; [|apply cder_mult; [apply cder_dpid|apply cder_dprev]]. cbv beta.
        replace (c + 1 - 1)%Z with c by ring. replace (e + 1 - 1)%Z with e by ring. ring.
      - intros t. eexists. exact (cder_minus _ _ _ _ _ (cder_mult _ _ _ _ _ (cder_dpid c t) (cder_dprev P (e + 1) t)) (cder_mult _ _ _ _ _ (cder_dpid (c + 1) t) (cder_dprev P e t))). }
    apply (is_CInt_ext (fun t => (dp (RtoC t) c * dp (RtoC (P - t)) (e + 1) - dp (RtoC t) (c + 1) * dp (RtoC (P - t)) e) + dp (RtoC t) (c + 1) * dp (RtoC (P - t)) e)).
    { intros. change (Z.succ e) with (e + 1)%Z. ring. }
    eapply is_CInt_val; [|apply is_CInt_plus; [exact G|exact IH]].
    unfold F. replace (P - P)%R with 0%R by ring. rewrite (dp_zero (e + 1)), (dp_zero (c + 1)) by lia.
    change (Z.succ e) with (e + 1)%Z. replace (c + 1 + e + 1)%Z with (c + (e + 1) + 1)%Z by ring. ring.
Qed.

(* ---- iterated integrals ---------------------------------------------------- *)
Definition is_int2 (a b : R) (lo hi : R -> R) (f : R -> R -> C) (I : C) : Prop :=
  exists h : R -> C, (forall u, is_CInt (f u) (lo u) (hi u) (h u)) /\ is_CInt h a b I.
Lemma is_int2_ext a b lo hi f g I : (forall u v, f u v = g u v) -> is_int2 a b lo hi f I -> is_int2 a b lo hi g I.
Proof. intros H (h & H1 & H2). exists h. split; [|exact H2]. intros u. now apply (is_CInt_ext (f u)). Qed.
Lemma is_int2_scal a b lo hi f I c : is_int2 a b lo hi f I -> is_int2 a b lo hi (fun u v => c * f u v) (c * I).
Proof. intros (h & H1 & H2). exists (fun u => c * h u). split; [intros u; now apply is_CInt_scal|now apply is_CInt_scal]. Qed.

Section Lin.
  Variables (a b : R) (lo1 hi1 : R -> R) (lo2 hi2 : R -> R -> R).
  Notation J := (is_int3 a b lo1 hi1 lo2 hi2).
  Lemma is_int3_ext f g I : (forall u v w, f u v w = g u v w) -> J f I -> J g I.
  Proof. intros H (g' & h & H1 & H2 & H3). exists g', h. split; [|split]; [|exact H2|exact H3]. intros u v. now apply (is_CInt_ext (f u v)). Qed.
  Lemma is_int3_scal c f I : J f I -> J (fun u v w => c * f u v w) (c * I).
  Proof.
    intros (g & h & H1 & H2 & H3). exists (fun u v => c * g u v), (fun u => c * h u).
    split; [|split]; intros; now apply is_CInt_scal.
  Qed.
  Lemma is_int3_plus f f' I I' : J f I -> J f' I' -> J (fun u v w => f u v w + f' u v w) (I + I').
  Proof.
    intros (g & h & H1 & H2 & H3) (g' & h' & H1' & H2' & H3'). exists (fun u v => g u v + g' u v), (fun u => h u + h' u).
    split; [|split]; intros; now apply is_CInt_plus.
  Qed.
  Lemma is_int3_conj f I : J f I -> J (fun u v w => Cconj (f u v w)) (Cconj I).
  Proof.
    intros (g & h & H1 & H2 & H3). exists (fun u v => Cconj (g u v)), (fun u => Cconj (h u)).
    split; [|split]; intros; now apply is_CInt_conj.
  Qed.
  Lemma is_int3_unique f I I' : J f I -> J f I' -> I = I'.
  Proof.
    intros (g & h & H1 & H2 & H3) (g' & h' & H1' & H2' & H3').
    assert (E : forall u v, g u v = g' u v) by (intros; eapply is_CInt_unique; eauto).
    assert (E' : forall u, h u = h' u).
    { intros u. eapply is_CInt_unique; [apply H2|]. apply (is_CInt_ext (g' u)); [intros; now rewrite E|]. apply H2'. }
    eapply is_CInt_unique; [exact H3|]. apply (is_CInt_ext h'); [intros; now rewrite E'|exact H3'].
  Qed.
End Lin.

(* what is needed of a body: a conjugation-equivariant linear functional *)
Lemma reg_val (B : body) f I J : I = J -> B f I -> B f J. Proof. now intros <-. Qed.
Lemma reg_zsum_pos (B : body) (p : Z) (f : Z -> R -> R -> R -> C) v (n : nat) : regular B ->
  (forall k, (p <= k < p + Z.of_nat (S n))%Z -> B (f k) (v k)) ->
  B (fun x y z => zsum p (p + Z.of_nat (S n)) (fun k => f k x y z)) (zsum p (p + Z.of_nat (S n)) v).
Proof.
  intros RB. induction n as [|n IH]; intros H.
  - change (p + Z.of_nat 1)%Z with (p + 1)%Z. rewrite zsum_one. apply (reg_ext B RB (f p)); [intros; now rewrite zsum_one|apply H; lia].
  - replace (p + Z.of_nat (S (S n)))%Z with (p + Z.of_nat (S n) + 1)%Z by lia. rewrite zsum_last by lia.
    apply (reg_ext B RB (fun x y z => zsum p (p + Z.of_nat (S n)) (fun k => f k x y z) + f (p + Z.of_nat (S n))%Z x y z)); [intros; now rewrite zsum_last by lia|].
    apply (reg_plus B RB); [apply IH; intros; apply H; lia|apply H; lia].
Qed.
Lemma reg_zsum (B : body) (p q : Z) (f : Z -> R -> R -> R -> C) v : regular B -> (p < q)%Z ->
  (forall k, (p <= k < q)%Z -> B (f k) (v k)) -> B (fun x y z => zsum p q (fun k => f k x y z)) (zsum p q v).
Proof.
  intros RB Hpq H. assert (E : q = (p + Z.of_nat (S (Z.to_nat (q - p - 1))))%Z) by lia. rewrite E in *. now apply reg_zsum_pos.
Qed.

Lemma regular_int3 a b lo1 hi1 lo2 hi2 (T : (R -> R -> R -> C) -> (R -> R -> R -> C)) :
  (forall f g u v w, (forall x y z, f x y z = g x y z) -> T f u v w = T g u v w) ->
  (forall c f u v w, T (fun x y z => c * f x y z) u v w = c * T f u v w) ->
  (forall f g u v w, T (fun x y z => f x y z + g x y z) u v w = T f u v w + T g u v w) ->
  (forall f u v w, T (fun x y z => Cconj (f x y z)) u v w = Cconj (T f u v w)) ->
  regular (fun f I => is_int3 a b lo1 hi1 lo2 hi2 (T f) I).
Proof.
  intros T1 T2 T3 T4. split.
  - intros f g I H. apply is_int3_ext. intros. now apply T1.
  - intros c f I H. eapply is_int3_ext; [|apply (is_int3_scal _ _ _ _ _ _ c _ _ H)]. intros. now rewrite T2.
  - intros f g I J H1 H2. eapply is_int3_ext; [|apply (is_int3_plus _ _ _ _ _ _ _ _ _ _ H1 H2)]. intros. now rewrite T3.
  - intros f I H. eapply is_int3_ext; [|apply (is_int3_conj _ _ _ _ _ _ _ _ H)]. intros. now rewrite T4.
  - intros f I J. apply is_int3_unique.
Qed.
Lemma regular_turned t B : regular B -> regular (turned_z t B).
Proof.
  intros RB. unfold turned_z. split.
  - intros f g I H. apply (reg_ext B RB). intros. apply H.
  - intros c f I. apply (reg_scal B RB).
  - intros f g I J. apply (reg_plus B RB).
  - intros f I. apply (reg_conj B RB).
  - intros f I J. apply (reg_unique B RB).
Qed.
Lemma regular_union n B : (forall i, (i < n)%nat -> regular (B i)) -> regular (union_of n B).
Proof.
  intros RB. split.
  - intros f g I H (J & H1 & ->). exists J. split; [|reflexivity]. intros i Hi. apply (reg_ext _ (RB i Hi) f); auto.
  - intros c f I (J & H1 & ->). exists (fun i => c * J i). split; [|now rewrite nsum_scal_l]. intros i Hi. apply (reg_scal _ (RB i Hi)); auto.
  - intros f g I I' (J & H1 & ->) (J' & H2 & ->). exists (fun i => J i + J' i). split; [|now rewrite nsum_plus]. intros i Hi. apply (reg_plus _ (RB i Hi)); auto.
  - intros f I (J & H1 & ->). exists (fun i => Cconj (J i)). split; [|now rewrite nsum_conj]. intros i Hi. apply (reg_conj _ (RB i Hi)); auto.
  - intros f I I' (J & H1 & ->) (J' & H2 & ->). apply nsum_ext. intros i Hi. apply (reg_unique _ (RB i Hi) f); auto.
Qed.

(* assembling the array from its m >= 0 half *)
Lemma rsolid_symm l m x y z : rsolid l (- m) (x, y, z) = sgnC m * Cconj (rsolid l m (x, y, z)).
Proof. unfold rsolid. rewrite nrm_opp, solid_symm, Cconj_mult, Cconj_RtoC. ring. Qed.
Lemma assemble B mass V q f : regular B -> V <> 0%R -> B (fun _ _ _ => 1) (RtoC V) -> half q f ->
  (forall l m, (0 <= m <= l)%Z -> (l <= deg q)%Z -> exists I, B (fun x y z => rsolid l m (x, y, z)) I /\ f l m = RtoC (mass / V) * I) ->
  moments_of_body (reflect q) mass B.
Proof.
  intros RB HV BV Hh H. exists V. split; [exact HV|]. split; [exact BV|]. split; [|now apply (reflect_reality q f)].
  intros l m Hl Hm. rewrite deg_reflect in *. rewrite (reflect_mom q f) by (assumption || lia).
  destruct (Z.eqb_spec m 0) as [->|Hm0].
  - destruct (H l 0%Z ltac:(lia) ltac:(lia)) as (I & HI & E). exists I. split; [exact HI|].
    assert (R0 : Cconj I = I).
    { apply (reg_unique B RB (fun x y z => rsolid l 0 (x, y, z))); [|exact HI].
      eapply (reg_ext B RB); [|apply (reg_conj B RB _ _ HI)]. intros x y z. cbv beta. assert (G := rsolid_symm l 0 x y z). change (- 0)%Z with 0%Z in G. rewrite sgnC_0 in G. rewrite G at 2. ring. }
    rewrite E. apply Cconj_fix_real in R0. destruct I as [i0 i1]. unfold Im in R0. cbn in R0. subst i1. apply C_eq; cbn; ring.
  - destruct (Z.ltb_spec 0 m), (Z.ltb_spec m 0), (Z.leb_spec m l), (Z.leb_spec (- m) l); try lia; cbn [andb].
    + apply H; lia.
    + destruct (H l (- m)%Z ltac:(lia) ltac:(lia)) as (I & HI & E). exists (sgnC m * Cconj I). split.
      * eapply (reg_ext B RB); [|apply (reg_scal B RB (sgnC m) _ _ (reg_conj B RB _ _ HI))]. intros x y z. cbv beta.
        assert (G := rsolid_symm l (- m) x y z). rewrite Z.opp_involutive, sgnC_opp in G. now rewrite G.
      * rewrite E, Cconj_mult, Cconj_RtoC. ring.
Qed.
