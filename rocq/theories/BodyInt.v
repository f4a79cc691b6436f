(* Every solid of the library integrates locally Lipschitz functions, and lies in a ball. *)
From Coq Require Import Reals Lra Lia.
From Coquelicot Require Import Coquelicot.
From Verif Require Import Sums ShapesProofs TransRecProofs RotationsProofs2 Props_Torque Newton Glib LipInt VInt SolidSpec ShapeSpec BodySpec Pg2MultiProofs Irreg2 Irreg Addition GlibProofs.
From Verif Require Import Cplx.
Open Scope R_scope.

Definition integrates (B : body) : Prop := forall (X : pspace) (f : X * vec -> R), LL (pprod X V3) Rs f ->
  exists g : X -> R, LL X Rs g /\ forall x, B (fun a b c => RtoC (f (x, (a, b, c)))) (RtoC (g x)).

Lemma vnorm_lip a b : Rabs (vnorm a - vnorm b) <= vnorm (vsub a b).
Proof.
  assert (H : forall p q, vnorm p - vnorm q <= vnorm (vsub p q)).
  { intros p q. assert (T := vnorm_triangle q (vsub p q)). replace (vadd q (vsub p q)) with p in T; [lra|]. destruct p as [[? ?] ?], q as [[? ?] ?]. unfold vadd, vsub. apply v3; ring. }
  assert (E : vnorm (vsub b a) = vnorm (vsub a b)). { destruct a as [[? ?] ?], b as [[? ?] ?]. unfold vsub. rewrite !vnorm_xyz. f_equal. ring. }
  assert (H1 := H a b). assert (H2 := H b a). rewrite E in H2. unfold Rabs. destruct (Rcase_abs _); lra.
Qed.
Lemma vnorm_sum x y z : vnorm (x, y, z) <= Rabs x + Rabs y + Rabs z.
Proof.
  rewrite vnorm_xyz. assert (A := Rabs_pos x). assert (B := Rabs_pos y). assert (D := Rabs_pos z).
  rewrite <- (sqrt_pow2 (Rabs x + Rabs y + Rabs z)) by lra. apply sqrt_le_1_alt. rewrite <- (pow2_abs x), <- (pow2_abs y), <- (pow2_abs z). nra.
Qed.
Lemma LL_vnorm : LL V3 Rs (fun v : vec => vnorm v).
Proof.
  intros A. exists 1, (Rabs A). split; [lra|]. split; [apply Rabs_pos|]. split.
  - intros [[x y] z] H. cbn [sn V3 pprod Rs fst snd] in *. rewrite Rabs_pos_eq by apply Newton.vnorm_ge0. eapply Rle_trans; [apply vnorm_sum|]. eapply Rle_trans; [exact H|apply Rle_abs].
  - intros [[x y] z] [[x' y'] z'] _ _. cbn [sd V3 pprod Rs fst snd]. eapply Rle_trans; [apply vnorm_lip|]. unfold vsub. rewrite Rmult_1_l. apply vnorm_sum.
Qed.
(* ---- iterated integrals ---- *)
Lemma CInt_real (f : R -> R) (F : R -> C) a b : (forall t, F t = RtoC (f t)) -> ex_RInt f a b -> is_CInt F a b (RtoC (RInt f a b)).
Proof.
  intros E H. apply (is_CInt_ext (fun t => RtoC (f t))); [intros t; symmetry; apply E|]. split; cbn [Re Im RtoC fst snd].
  - apply (RInt_correct (V := R_CompleteNormedModule) f a b H).
  - assert (Z := is_RInt_const (V := R_NormedModule) a b 0). unfold scal in Z; cbn in Z; unfold mult in Z; cbn in Z. rewrite Rmult_0_r in Z. exact Z.
Qed.
Definition xf (X : pspace) : pspace := pprod (pprod (pprod X Rs) Rs) Rs.
Lemma LL_proj3 X : LL (xf X) V3 (fun p : ((X * R) * R) * R => (snd (fst (fst p)), snd (fst p), snd p)).
Proof.
  apply (LL_pair (xf X) (pprod Rs Rs) Rs (fun p : ((X * R) * R) * R => (snd (fst (fst p)), snd (fst p))) (fun p : ((X * R) * R) * R => snd p)); [|apply LL_snd].
  apply (LL_pair (xf X) Rs Rs (fun p : ((X * R) * R) * R => snd (fst (fst p))) (fun p : ((X * R) * R) * R => snd (fst p))).
  - apply (LL_comp (xf X) (pprod X Rs) Rs (fun p : ((X * R) * R) * R => fst (fst p)) snd); [|apply LL_snd]. apply (LL_comp (xf X) (pprod (pprod X Rs) Rs) (pprod X Rs) fst fst); apply LL_fst.
  - apply (LL_comp (xf X) (pprod (pprod X Rs) Rs) Rs fst snd); [apply LL_fst|apply LL_snd].
Qed.
Lemma LL_proj0 X : LL (xf X) X (fun p : ((X * R) * R) * R => fst (fst (fst p))).
Proof.
  apply (LL_comp (xf X) (pprod X Rs) X (fun p : ((X * R) * R) * R => fst (fst p)) fst); [|apply LL_fst]. apply (LL_comp (xf X) (pprod (pprod X Rs) Rs) (pprod X Rs) fst fst); apply LL_fst.
Qed.
Lemma integrates_int3 a b (lo1 hi1 : R -> R) (lo2 hi2 : R -> R -> R) (jac : vec -> R) (P : vec -> vec) (T : (R -> R -> R -> C) -> (R -> R -> R -> C)) :
  (forall f u v w, T f u v w = (RtoC (jac (u, v, w)) * (let '(x, y, z) := P (u, v, w) in f x y z))%C) ->
  LL Rs Rs lo1 -> LL Rs Rs hi1 -> LL (pprod Rs Rs) Rs (fun p : R * R => lo2 (fst p) (snd p)) -> LL (pprod Rs Rs) Rs (fun p : R * R => hi2 (fst p) (snd p)) ->
  LL V3 Rs jac -> LL V3 V3 P -> integrates (fun f I => is_int3 a b lo1 hi1 lo2 hi2 (T f) I).
Proof.
  intros HT L1 H1 L2 H2 HJ HP X f Hf.
  set (F := fun p : ((X * R) * R) * R => jac (snd (fst (fst p)), snd (fst p), snd p) * f (fst (fst (fst p)), P (snd (fst (fst p)), snd (fst p), snd p))).
  assert (HF : LL (xf X) Rs F).
  { apply (LL_mult (xf X)).
    - apply (LL_comp (xf X) V3 Rs _ jac (LL_proj3 X) HJ).
    - apply (LL_comp (xf X) (pprod X V3) Rs (fun p : ((X * R) * R) * R => (fst (fst (fst p)), P (snd (fst (fst p)), snd (fst p), snd p))) f); [|exact Hf].
      apply (LL_pair (xf X) X V3); [apply LL_proj0|]. apply (LL_comp (xf X) V3 V3 _ P (LL_proj3 X) HP). }
  set (h2 := fun p : (X * R) * R => RInt (fun w => F (p, w)) (lo2 (snd (fst p)) (snd p)) (hi2 (snd (fst p)) (snd p))).
  assert (Pr : LL (pprod (pprod X Rs) Rs) (pprod Rs Rs) (fun p : (X * R) * R => (snd (fst p), snd p))).
  { apply (LL_pair (pprod (pprod X Rs) Rs) Rs Rs); [|apply LL_snd]. apply (LL_comp (pprod (pprod X Rs) Rs) (pprod X Rs) Rs fst snd); [apply LL_fst|apply LL_snd]. }
  assert (Hh2 : LL (pprod (pprod X Rs) Rs) Rs h2).
  { apply (LL_int (pprod (pprod X Rs) Rs) F (fun p : (X * R) * R => lo2 (snd (fst p)) (snd p)) (fun p : (X * R) * R => hi2 (snd (fst p)) (snd p)) HF).
    - exact (LL_comp (pprod (pprod X Rs) Rs) (pprod Rs Rs) Rs _ _ Pr L2). - exact (LL_comp (pprod (pprod X Rs) Rs) (pprod Rs Rs) Rs _ _ Pr H2). }
  set (h1 := fun p : X * R => RInt (fun v => h2 (p, v)) (lo1 (snd p)) (hi1 (snd p))).
  assert (Hh1 : LL (pprod X Rs) Rs h1).
  { apply (LL_int (pprod X Rs) h2 (fun p : X * R => lo1 (snd p)) (fun p : X * R => hi1 (snd p)) Hh2).
    - exact (LL_comp (pprod X Rs) Rs Rs snd lo1 (LL_snd X Rs) L1). - exact (LL_comp (pprod X Rs) Rs Rs snd hi1 (LL_snd X Rs) H1). }
  exists (fun x => RInt (fun u => h1 (x, u)) a b). split.
  - apply (LL_int X h1 (fun _ => a) (fun _ => b) Hh1); [exact (LL_const X a)|exact (LL_const X b)].
  - intros x. exists (fun u v => RtoC (h2 ((x, u), v))), (fun u => RtoC (h1 (x, u))). split; [|split].
    + intros u v. apply (CInt_real (fun w => F (((x, u), v), w))).
      * intros w. rewrite HT. unfold F. cbn [fst snd]. destruct (P (u, v, w)) as [[p q] s]. now rewrite RtoC_mult.
      * apply (LL_ex_RInt (pprod (pprod X Rs) Rs) F ((x, u), v) _ _ HF).
    + intros u. apply (CInt_real (fun v => h2 ((x, u), v))); [reflexivity|]. apply (LL_ex_RInt (pprod X Rs) h2 (x, u) _ _ Hh2).
    + apply (CInt_real (fun u => h1 (x, u))); [reflexivity|]. apply (LL_ex_RInt X h1 x _ _ Hh1).
Qed.
(* ---- bounds ---- *)
Definition betw (a b t : R) : Prop := Rmin a b <= t <= Rmax a b.
Lemma re_le (z : C) : Rabs (Re z) <= Cmod z.
Proof. eapply Rle_trans; [apply Rmax_l|apply (Rmax_Cmod z)]. Qed.
Lemma im_le (z : C) : Rabs (Im z) <= Cmod z.
Proof. eapply Rle_trans; [apply Rmax_r|apply (Rmax_Cmod z)]. Qed.
Lemma mod_le (z : C) : Cmod z <= Rabs (Re z) + Rabs (Im z).
Proof.
  assert (A := Rabs_pos (Re z)). assert (B := Rabs_pos (Im z)). rewrite <- (sqrt_pow2 (Rabs (Re z) + Rabs (Im z))) by lra. unfold Cmod. apply sqrt_le_1_alt.
  unfold Re, Im in *. rewrite <- (pow2_abs (fst z)), <- (pow2_abs (snd z)). nra.
Qed.
Lemma CInt_bound F a b v M : is_CInt F a b v -> (forall t, betw a b t -> Cmod (F t) <= M) -> Cmod v <= Rabs (b - a) * (2 * M).
Proof.
  intros [H1 H2] H.
  assert (Rb : forall (f : R -> R) I, is_RInt f a b I -> (forall t, betw a b t -> Rabs (f t) <= M) -> Rabs I <= Rabs (b - a) * M).
  { intros f I Hf Hb. rewrite <- (is_RInt_unique (V := R_CompleteNormedModule) f a b I Hf). apply RInt_abs; [now exists I|exact Hb]. }
  assert (A1 := Rb _ _ H1 ltac:(intros t Ht; eapply Rle_trans; [apply (re_le (F t))|now apply H])).
  assert (A2 := Rb _ _ H2 ltac:(intros t Ht; eapply Rle_trans; [apply (im_le (F t))|now apply H])).
  eapply Rle_trans; [apply (mod_le v)|]. lra.
Qed.
Lemma confined_int3 a b (lo1 hi1 : R -> R) (lo2 hi2 : R -> R -> R) (jac : vec -> R) (P : vec -> vec) (T : (R -> R -> R -> C) -> (R -> R -> R -> C)) r J A1 A2 :
  (forall f u v w, T f u v w = (RtoC (jac (u, v, w)) * (let '(x, y, z) := P (u, v, w) in f x y z))%C) -> 0 <= J ->
  (forall u, betw a b u -> Rabs (hi1 u - lo1 u) <= A1) -> (forall u v, betw a b u -> betw (lo1 u) (hi1 u) v -> Rabs (hi2 u v - lo2 u v) <= A2) ->
  (forall u v w, betw a b u -> betw (lo1 u) (hi1 u) v -> betw (lo2 u v) (hi2 u v) w -> Rabs (jac (u, v, w)) <= J /\ vnorm (P (u, v, w)) <= r) ->
  confined (fun f I => is_int3 a b lo1 hi1 lo2 hi2 (T f) I) r.
Proof.
  intros HT HJ H1 H2 H. set (B1 := Rabs A1). set (B2 := Rabs A2).
  exists (Rabs (b - a) * (2 * (B1 * (2 * (B2 * (2 * J)))))). split.
  { assert (X1 := Rabs_pos (b - a)). assert (X2 : 0 <= B1) by apply Rabs_pos. assert (X3 : 0 <= B2) by apply Rabs_pos. repeat (first [exact X1|exact X2|exact X3|exact HJ|lra|apply Rmult_le_pos]). }
  intros f I e He (g & h & Hg & Hh & HI) Hf.
  assert (Bg : forall u v, betw a b u -> betw (lo1 u) (hi1 u) v -> Cmod (g u v) <= B2 * (2 * (J * e))).
  { intros u v Hu Hv. eapply Rle_trans; [apply (CInt_bound _ _ _ _ (J * e) (Hg u v))|].
    - intros w Hw. destruct (H u v w Hu Hv Hw) as [K1 K2]. rewrite HT, Cmod_mult, Cmod_R. destruct (P (u, v, w)) as [[x y] z]. apply Rmult_le_compat; [apply Rabs_pos|apply Cmod_ge_0|exact K1|now apply Hf].
    - apply Rmult_le_compat_r; [assert (0 <= J * e) by (now apply Rmult_le_pos); lra|]. eapply Rle_trans; [now apply H2|apply Rle_abs]. }
  assert (X3 : 0 <= B2 * (2 * (J * e))). { apply Rmult_le_pos; [apply Rabs_pos|]. assert (0 <= J * e) by (now apply Rmult_le_pos). lra. }
  assert (Bh : forall u, betw a b u -> Cmod (h u) <= B1 * (2 * (B2 * (2 * (J * e))))).
  { intros u Hu. eapply Rle_trans; [apply (CInt_bound _ _ _ _ (B2 * (2 * (J * e))) (Hh u)); intros v Hv; now apply Bg|].
    apply Rmult_le_compat_r; [lra|]. eapply Rle_trans; [now apply H1|apply Rle_abs]. }
  eapply Rle_trans; [apply (CInt_bound _ _ _ _ _ HI Bh)|]. right. ring.
Qed.
(* ---- bodies: regular, inside a ball, integrating ---- *)
Record nice (B : body) (r : R) : Prop := mknice { n_reg : regular B; n_conf : confined B r; n_int : integrates B; n_r : 0 <= r }.
Lemma nice_iff B B' r : (forall f I, B f I <-> B' f I) -> nice B r -> nice B' r.
Proof.
  intros H [[R1 R2 R3 R4 R5] [K [HK C]] N Hr]. split.
  - split; intros; rewrite <- !H in *; eauto.
  - exists K. split; [exact HK|]. intros f I e He HI. rewrite <- H in HI. eauto.
  - intros X f Hf. destruct (N X f Hf) as (g & Hg & G). exists g. split; [exact Hg|]. intros x. now apply H.
  - exact Hr.
Qed.
(* moving: any isometry or other Lipschitz map of space *)
Definition mapped (M : vec -> vec) (B : body) : body := fun f I => B (fun x y z => let '(x', y', z') := M (x, y, z) in f x' y' z') I.
Lemma integrates_mapped M B : LL V3 V3 M -> regular B -> integrates B -> integrates (mapped M B).
Proof.
  intros HM RB H X f Hf. destruct (H X (fun p : X * vec => f (fst p, M (snd p)))) as (g & Hg & G).
  - apply (LL_comp (pprod X V3) (pprod X V3) Rs (fun p : X * vec => (fst p, M (snd p))) f); [|exact Hf]. apply (LL_pair (pprod X V3) X V3); [apply LL_fst|]. apply (LL_comp (pprod X V3) V3 V3 snd M); [apply LL_snd|exact HM].
  - exists g. split; [exact Hg|]. intros x. unfold mapped. apply (reg_ext B RB (fun a b c => RtoC (f (x, M (a, b, c))))); [|exact (G x)]. intros a b c. now destruct (M (a, b, c)) as [[? ?] ?].
Qed.
Lemma confined_mapped M B r r' : (forall v, vnorm v <= r -> vnorm (M v) <= r') -> confined B r -> confined (mapped M B) r'.
Proof.
  intros HM (K & HK & H). exists K. split; [exact HK|]. intros f I e He HI Hf. apply (H _ I e He HI). intros x y z Hx. assert (Q := HM _ Hx). destruct (M (x, y, z)) as [[? ?] ?]. now apply Hf.
Qed.
Lemma regular_mapped M B : regular B -> regular (mapped M B).
Proof.
  intros RB. unfold mapped. split.
  - intros f g I H HI. eapply (reg_ext B RB); [|exact HI]. intros x y z. cbv beta. destruct (M (x, y, z)) as [[? ?] ?]. apply H.
  - intros c f I HI. apply (reg_scal B RB c) in HI. eapply (reg_ext B RB); [|exact HI]. intros x y z. cbv beta. now destruct (M (x, y, z)) as [[? ?] ?].
  - intros f g I J HI HJ. assert (P := reg_plus B RB _ _ _ _ HI HJ). eapply (reg_ext B RB); [|exact P]. intros x y z. cbv beta. now destruct (M (x, y, z)) as [[? ?] ?].
  - intros f I HI. apply (reg_conj B RB) in HI. eapply (reg_ext B RB); [|exact HI]. intros x y z. cbv beta. now destruct (M (x, y, z)) as [[? ?] ?].
  - intros f I J HI HJ. exact (reg_unique B RB _ _ _ HI HJ).
Qed.
Lemma nice_mapped M B r r' : LL V3 V3 M -> 0 <= r' -> (forall v, vnorm v <= r -> vnorm (M v) <= r') -> nice B r -> nice (mapped M B) r'.
Proof. intros HM Hr Hv [A1 A2 A3 A4]. split; [now apply regular_mapped|now apply (confined_mapped M B r r')|now apply integrates_mapped|exact Hr]. Qed.
Lemma LLp (X : pspace) (f g h : X -> R) : LL X Rs f -> LL X Rs g -> LL X Rs h -> LL X V3 (fun x => (f x, g x, h x)).
Proof. intros. apply (LL_pair X (pprod Rs Rs) Rs (fun x => (f x, g x)) h); [|assumption]. now apply (LL_pair X Rs Rs). Qed.
Lemma LL1 : LL V3 Rs (fun v : vec => fst (fst v)). Proof. exact (LL_comp V3 (pprod Rs Rs) Rs fst fst (LL_fst (pprod Rs Rs) Rs) (LL_fst Rs Rs)). Qed.
Lemma LL2 : LL V3 Rs (fun v : vec => snd (fst v)). Proof. exact (LL_comp V3 (pprod Rs Rs) Rs fst snd (LL_fst (pprod Rs Rs) Rs) (LL_snd Rs Rs)). Qed.
Lemma LL3 : LL V3 Rs (fun v : vec => snd v). Proof. exact (LL_snd (pprod Rs Rs) Rs). Qed.
Lemma LLc (X : pspace) (c : R) : LL X Rs (fun _ => c). Proof. exact (LL_const X c). Qed.
Lemma LLid : LL Rs Rs (fun x : R => x). Proof. exact (LL_id Rs). Qed.
Lemma LLf : LL (pprod Rs Rs) Rs (fun p : R * R => fst p). Proof. exact (LL_fst Rs Rs). Qed.
Lemma LLs : LL (pprod Rs Rs) Rs (fun p : R * R => snd p). Proof. exact (LL_snd Rs Rs). Qed.
Lemma LLcos (X : pspace) (f : X -> R) : LL X Rs f -> LL X Rs (fun x => cos (f x)). Proof. intros H. exact (LL_comp X Rs Rs f cos H LL_cos). Qed.
Lemma LLsin (X : pspace) (f : X -> R) : LL X Rs f -> LL X Rs (fun x => sin (f x)). Proof. intros H. exact (LL_comp X Rs Rs f sin H LL_sin). Qed.
Lemma LLdiv (X : pspace) (f : X -> R) c : LL X Rs f -> LL X Rs (fun x => f x / c). Proof. intros H. exact (LL_mult X f (fun _ => / c) H (LLc X (/ c))). Qed.
Ltac ll := repeat match goal with
  | |- LL _ V3 _ => apply LLp
  | |- LL V3 Rs (fun v => fst (fst v)) => exact LL1
  | |- LL V3 Rs (fun v => snd (fst v)) => exact LL2
  | |- LL V3 Rs (fun v => snd v) => exact LL3
  | |- LL V3 Rs snd => exact LL3
  | |- LL (pprod Rs Rs) Rs fst => exact LLf
  | |- LL (pprod Rs Rs) Rs snd => exact LLs
  | |- LL Rs Rs (fun x => x) => exact LLid
  | |- LL (pprod Rs Rs) Rs (fun x => fst x) => exact LLf
  | |- LL (pprod Rs Rs) Rs (fun x => snd x) => exact LLs
  | |- LL ?X _ (fun _ => ?c) => exact (LLc X c)
  | |- LL ?X _ (fun x => ?f + ?g) => apply (LL_plus X (fun x => f) (fun x => g))
  | |- LL ?X _ (fun x => ?f - ?g) => apply (LL_minus X (fun x => f) (fun x => g))
  | |- LL ?X _ (fun x => ?f * ?g) => apply (LL_mult X (fun x => f) (fun x => g))
  | |- LL ?X _ (fun x => - ?f) => apply (LL_opp X (fun x => f))
  | |- LL ?X _ (fun x => ?f / ?c) => apply (LLdiv X (fun x => f) c)
  | |- LL ?X _ (fun x => ?f ^ ?n) => apply (LL_pow X (fun x => f) n)
  | |- LL ?X _ (fun x => cos ?f) => apply (LLcos X (fun x => f))
  | |- LL ?X _ (fun x => sin ?f) => apply (LLsin X (fun x => f))
  end.
Lemma LL_vadd t : LL V3 V3 (fun v : vec => vadd v t).
Proof.
  destruct t as [[a b] c]. apply (LL_ext V3 V3 (fun v : vec => (fst (fst v) + a, snd (fst v) + b, snd v + c))); [intros [[x y] z]; reflexivity|]. ll.
Qed.
Lemma zrot_p (t x y z : R) : (x * cos t - y * sin t, x * sin t + y * cos t, z) = zrot t (x, y, z).
Proof. unfold zrot. apply v3; ring. Qed.
Lemma yrot_p (t x y z : R) : (x * cos t + z * sin t, y, z * cos t - x * sin t) = yrot t (x, y, z).
Proof. unfold yrot. apply v3; ring. Qed.
Lemma LL_zrot t : LL V3 V3 (fun v : vec => zrot t v).
Proof.
  apply (LL_ext V3 V3 (fun v : vec => (fst (fst v) * cos t - snd (fst v) * sin t, fst (fst v) * sin t + snd (fst v) * cos t, snd v))); [intros [[x y] z]; apply zrot_p|]. ll.
Qed.
Lemma LL_yrot t : LL V3 V3 (fun v : vec => yrot t v).
Proof.
  apply (LL_ext V3 V3 (fun v : vec => (fst (fst v) * cos t + snd v * sin t, snd (fst v), snd v * cos t - fst (fst v) * sin t))); [intros [[x y] z]; apply yrot_p|]. ll.
Qed.
Lemma vnorm_yrot t v : vnorm (yrot t v) = vnorm v.
Proof.
  destruct v as [[x y] z]. unfold yrot. rewrite !vnorm_xyz. f_equal. assert (T := sin2_cos2 t). unfold Rsqr in T.
  transitivity ((sin t * sin t + cos t * cos t) * (x ^ 2 + z ^ 2) + y ^ 2); [ring|rewrite T; ring].
Qed.
Lemma nice_weaken B r r' : r <= r' -> nice B r -> nice B r'.
Proof.
  intros H [A1 (K & HK & A2) A3 A4]. split; [exact A1| |exact A3|lra]. exists K. split; [exact HK|]. intros f I e He HI Hf. apply (A2 f I e He HI). intros x y z Hx. apply Hf. lra.
Qed.
Lemma nice_shifted t B r : nice B r -> nice (shifted t B) (r + vnorm t).
Proof.
  intros N. assert (Ht := Newton.vnorm_ge0 t). apply (nice_mapped (fun v => vadd v t) B r); [apply LL_vadd|assert (Hr := n_r _ _ N); lra| |exact N]. intros v Hv. assert (T := vnorm_triangle v t). lra.
Qed.
Lemma nice_turned a b g B r : nice B r -> nice (turned a b g B) r.
Proof.
  intros N. apply (nice_mapped (fun v => zrot a (yrot b (zrot g v))) B r); [|exact (n_r _ _ N)| |exact N].
  - apply (LL_comp V3 V3 V3 (fun v => yrot b (zrot g v)) (zrot a)); [|apply LL_zrot]. apply (LL_comp V3 V3 V3 (zrot g) (yrot b)); [apply LL_zrot|apply LL_yrot].
  - intros v Hv. now rewrite vnorm_zrot, vnorm_yrot, vnorm_zrot.
Qed.
Lemma nice_turned_z t B r : nice B r -> nice (turned_z t B) r.
Proof.
  intros N. assert (RB := n_reg _ _ N). apply (nice_iff (mapped (zrot t) B)).
  { intros f I. unfold mapped, turned_z, zrot. split; apply (reg_ext B RB); intros x y z; f_equal; ring. }
  apply (nice_mapped (zrot t) B r); [apply LL_zrot|exact (n_r _ _ N)| |exact N]. intros v Hv. now rewrite vnorm_zrot.
Qed.
Lemma nice_dense rho B r : nice B r -> nice (dense rho B) r.
Proof.
  intros [A1 (K & HK & A2) A3 A4]. split; [now apply regular_dense| | |exact A4].
  - exists (Rabs rho * K). split; [apply Rmult_le_pos; [apply Rabs_pos|exact HK]|]. intros f I e He (J & HJ & ->) Hf. rewrite Cmod_mult, Cmod_R, Rmult_assoc. apply Rmult_le_compat_l; [apply Rabs_pos|]. exact (A2 f J e He HJ Hf).
  - intros X f Hf. destruct (A3 X f Hf) as (g & Hg & G). exists (fun x => rho * g x). split; [exact (LL_mult X (fun _ => rho) g (LLc X rho) Hg)|]. intros x. exists (RtoC (g x)). split; [apply G|apply RtoC_mult].
Qed.
Lemma nice_of_mass (m V : R) (B : body) (r : R) : V <> 0 -> B (fun _ _ _ => RtoC 1) (RtoC V) -> nice B r -> nice (of_mass m B) r.
Proof.
  intros HV HB N. assert (RB := n_reg _ _ N). apply (nice_iff (dense (m / V) B)); [|now apply nice_dense].
  intros f I. split.
  - intros (J & HJ & ->). exists V, J. now repeat split.
  - intros (V' & J & HV' & HB' & HJ & ->). exists J. split; [exact HJ|]. assert (E := reg_unique B RB _ _ _ HB HB'). apply RtoC_inj in E. now rewrite E.
Qed.
Lemma nice_together B1 B2 r : nice B1 r -> nice B2 r -> nice (together B1 B2) r.
Proof.
  intros [A1 (K & HK & A2) A3 A4] [D1 (K' & HK' & D2) D3 _]. split; [now apply regular_together| | |exact A4].
  - exists (K + K'). split; [lra|]. intros f I e He (I1 & I2 & H1 & H2 & ->) Hf. eapply Rle_trans; [apply Cmod_triangle|]. rewrite Rmult_plus_distr_r. apply Rplus_le_compat; [exact (A2 f I1 e He H1 Hf)|exact (D2 f I2 e He H2 Hf)].
  - intros X f Hf. destruct (A3 X f Hf) as (g & Hg & G). destruct (D3 X f Hf) as (g' & Hg' & G'). exists (fun x => g x + g' x). split; [exact (LL_plus X g g' Hg Hg')|]. intros x. exists (RtoC (g x)), (RtoC (g' x)). split; [apply G|]. split; [apply G'|apply RtoC_plus].
Qed.
Lemma nice_nothing : nice (point_masses nil) 0.
Proof.
  split; [apply regular_points| | |lra].
  - exists 0. split; [lra|]. intros f I e He -> _. cbn. rewrite Cmod_0. lra.
  - intros X f Hf. exists (fun _ => 0). split; [exact (LLc X 0)|]. intros x. reflexivity.
Qed.
Lemma nice_points P r : 0 <= r -> (forall p, List.In p P -> vnorm (pp p) <= r) -> nice (point_masses P) r.
Proof.
  intros Hr. induction P as [|p P IH]; intros H; [apply (nice_weaken _ 0); [exact Hr|apply nice_nothing]|].
  assert (N := IH ltac:(intros q Hq; apply H; now right)). clear IH. assert (Hp := H p (or_introl eq_refl)).
  apply (nice_iff (together (point_masses (p :: nil)) (point_masses P))).
  { intros f I. unfold together, point_masses. split; [intros (I1 & I2 & -> & -> & ->); unfold lsum; cbn; ring|]. intros ->. eexists _, _. split; [reflexivity|]. split; [reflexivity|]. unfold lsum. cbn. ring. }
  apply nice_together; [|exact N]. destruct p as [m [[x y] z]]. cbn [pp] in Hp. split; [apply regular_points| | |exact Hr].
  - exists (Rabs m). split; [apply Rabs_pos|]. intros f I e He -> Hf. unfold lsum. cbn. rewrite Cplus_0_r, Cmod_mult, Cmod_R. apply Rmult_le_compat_l; [apply Rabs_pos|now apply Hf].
  - intros X f Hf. exists (fun u => m * f (u, (x, y, z))). split.
    + apply (LL_mult X (fun _ => m)); [exact (LLc X m)|]. apply (LL_comp X (pprod X V3) Rs (fun u => (u, (x, y, z))) f); [|exact Hf]. apply (LL_pair X X V3); [apply LL_id|]. apply (LLp X (fun _ => x) (fun _ => y) (fun _ => z)); [exact (LLc X x)|exact (LLc X y)|exact (LLc X z)].
    + intros u. unfold point_masses, lsum. cbn. rewrite RtoC_mult. ring.
Qed.
Lemma nice_union n (B : nat -> body) (r : R) : 0 <= r -> (forall i, (i < n)%nat -> nice (B i) r) -> nice (union_of n B) r.
Proof.
  intros Hr. induction n as [|n IH]; intros H.
  - apply (nice_iff (point_masses nil)); [|apply (nice_weaken _ 0); [exact Hr|apply nice_nothing]]. intros f I. split; [intros ->; exists (fun _ => RtoC 0); split; [lia|reflexivity]|]. intros (J & _ & ->). reflexivity.
  - apply (nice_iff (together (union_of n B) (B n))); [|apply nice_together; [apply IH; intros i Hi; apply H; lia|apply H; lia]].
    intros f I. split.
    + intros (I1 & I2 & (J & HJ & ->) & H2 & ->). exists (fun i => if Nat.eqb i n then I2 else J i). split.
      * intros i Hi. destruct (Nat.eqb_spec i n) as [->|]; [exact H2|apply HJ; lia].
      * cbn [nsum]. rewrite Nat.eqb_refl. f_equal. apply nsum_ext. intros i Hi. destruct (Nat.eqb_spec i n); [lia|reflexivity].
    + intros (J & HJ & ->). exists (nsum n J), (J n). split; [exists J; split; [intros i Hi; apply HJ; lia|reflexivity]|]. split; [apply HJ; lia|reflexivity].
Qed.
