(* Iterated integrals of functions uniformly continuous on bounded sets: the order of integration, and polar coordinates. *)
From Coq Require Import Reals Lra Lia List.
From Coquelicot Require Import Coquelicot.
From Verif Require Import LipInt BodyInt Refine2.
From Verif Require Import Refine Refine5.
Open Scope R_scope.

Lemma UC_mult (X : pspace) (f g : X -> R) : UC X Rs f -> UC X Rs g -> UC X Rs (fun x => f x * g x).
Proof. intros F G. apply (UC_comp X P2 Rs (fun x => (f x, g x)) (fun p => fst p * snd p)); [now apply (UC_pair X Rs Rs)|]. apply UC_LL. unfold P2. apply (LL_mult (pprod Rs Rs)); [apply LL_fst|apply LL_snd]. Qed.
Lemma UC_fst (X Y : pspace) : UC (pprod X Y) X fst. Proof. apply UC_LL, LL_fst. Qed.
Lemma UC_snd (X Y : pspace) : UC (pprod X Y) Y snd. Proof. apply UC_LL, LL_snd. Qed.
Lemma UC_cst (X : pspace) c : UC X Rs (fun _ => c). Proof. apply UC_LL, LL_const. Qed.
Lemma UC_cos (X : pspace) f : UC X Rs f -> UC X Rs (fun x => cos (f x)). Proof. intros F. exact (UC_comp X Rs Rs f cos F (UC_LL _ _ _ LL_cos)). Qed.
Lemma UC_sin (X : pspace) f : UC X Rs f -> UC X Rs (fun x => sin (f x)). Proof. intros F. exact (UC_comp X Rs Rs f sin F (UC_LL _ _ _ LL_sin)). Qed.
Lemma UC_two (X : pspace) (g : R * R -> R) a b : UC P2 Rs g -> UC X Rs a -> UC X Rs b -> UC X Rs (fun x => g (a x, b x)).
Proof. intros G A B. apply (UC_comp X P2 Rs (fun x => (a x, b x)) g); [now apply (UC_pair X Rs Rs)|exact G]. Qed.

Lemma rs_swap n m (F : nat -> nat -> R) : rs n (fun i => rs m (fun j => F i j)) = rs m (fun j => rs n (fun i => F i j)).
Proof. induction n as [|n IH]; cbn; [now rewrite rs_const, Rmult_0_r|]. rewrite IH. now rewrite rs_plus. Qed.
Lemma UC_col (g : R * R -> R) : UC P2 Rs g -> UC P2 Rs (fun p => g (snd p, fst p)).
Proof. intros G. apply (UC_two P2 g snd fst G); [apply (UC_snd Rs Rs)|apply (UC_fst Rs Rs)]. Qed.
Lemma UC_row (g : R * R -> R) c d : UC P2 Rs g -> UC Rs Rs (fun u => RInt (fun v => g (u, v)) c d).
Proof. intros G. apply (UC_int Rs g (fun _ => c) (fun _ => d) G); apply UC_cst. Qed.
Lemma ex_int1 (g : R -> R) a b : UC Rs Rs g -> ex_RInt g a b.
Proof. intros G. apply (UC_ex_RInt Rs (fun p => g (snd p)) 0). exact (UC_comp (pprod Rs Rs) Rs Rs snd g (UC_snd Rs Rs) G). Qed.
Lemma cont1 (g : R -> R) (t : R) : UC Rs Rs g -> continuous g t.
Proof. intros G. apply (UC_continuous Rs (fun p => g (snd p)) 0). exact (UC_comp (pprod Rs Rs) Rs Rs snd g (UC_snd Rs Rs) G). Qed.
Lemma ex_row (g : R * R -> R) u c d : UC P2 Rs g -> ex_RInt (fun v => g (u, v)) c d.
Proof. intros G. exact (UC_ex_RInt Rs g u c d G). Qed.
Lemma dbl (g : R * R -> R) a b c d eps : UC P2 Rs g -> a < b -> c < d -> 0 < eps ->
  exists N, (0 < N)%nat /\ forall n, (N <= n)%nat -> Rabs (rs n (fun i => rs n (fun j => cw a b n * (cw c d n * g (mid a b n i, mid c d n j)))) - RInt (fun u => RInt (fun v => g (u, v)) c d) a b) <= eps.
Proof.
  intros G Hab Hcd He. set (C := (b - a) * (d - c + 1) + (b - a + 1)). assert (HC : 0 < C) by (unfold C; assert (0 < (b - a) * (d - c + 1)) by (apply Rmult_lt_0_compat; lra); lra).
  set (eta := eps / C). assert (Het : 0 < eta) by (now apply Rdiv_lt_0_compat).
  set (A := Rabs a + Rabs b). destruct (cells_uc Rs g c d A eta Hcd G Het) as (N1 & HN1 & Q1).
  set (H := fun u => RInt (fun v => g (u, v)) c d). assert (UH : UC (pprod Rs Rs) Rs (fun p => H (snd p))) by exact (UC_comp (pprod Rs Rs) Rs Rs snd H (UC_snd Rs Rs) (UC_row g c d G)).
  destruct (cells_uc Rs (fun p => H (snd p)) a b 0 eta Hab UH Het) as (N2 & HN2 & Q2).
  exists (N1 + N2)%nat. split; [lia|]. intros n Hn. assert (CP := cw_pos a b n Hab ltac:(lia)). assert (W : INR n * cw a b n = b - a) by (rewrite <- rs_const; apply rs_cw; lia).
  replace eps with ((b - a) * (eta * (d - c + 1)) + eta * (b - a + 1)) by (unfold eta, C; unfold C in HC; field; lra).
  apply (via _ (rs n (fun i => chi true * (cw a b n * H (mid a b n i))))).
  - rewrite <- W at 1. rewrite (rs_ext n _ (fun i => chi true * (cw a b n * rs n (fun j => chi true * (cw c d n * g (mid a b n i, mid c d n j)))))).
    2:{ intros i _. rewrite rs_scal. cbn. rewrite Rmult_1_l. f_equal. apply rs_ext. intros j _. ring. }
    apply (rs_err n (fun _ => true)); [lra|apply Rmult_le_pos; lra|]. intros i Hi _. apply (Q1 n ltac:(lia) (mid a b n i) c d (fun _ => true)); try lra.
    + cbn. assert (E := edge_in a b n i Hab ltac:(lia) Hi). unfold A. assert (U := Rle_abs (- a)). rewrite Rabs_Ropp in U. assert (U1 := Rle_abs b). assert (U2 := Rabs_pos a). assert (U3 := Rabs_pos b). apply Rabs_le_between. lra.
    + intros j Hj _. apply edge_in; [exact Hcd|lia|exact Hj].
    + reflexivity.
  - apply (Q2 n ltac:(lia) 0 a b (fun _ => true)); try lra; [cbn; rewrite Rabs_R0; lra| |reflexivity]. intros j Hj _. apply edge_in; [exact Hab|lia|exact Hj].
Qed.
Lemma fubini_lt (g : R * R -> R) a b c d : UC P2 Rs g -> a < b -> c < d -> RInt (fun u => RInt (fun v => g (u, v)) c d) a b = RInt (fun v => RInt (fun u => g (u, v)) a b) c d.
Proof.
  intros G Hab Hcd. apply cond_eq. intros eps He. destruct (dbl g a b c d (eps / 3) G Hab Hcd ltac:(lra)) as (N1 & _ & Q1). destruct (dbl (fun p => g (snd p, fst p)) c d a b (eps / 3) (UC_col g G) Hcd Hab ltac:(lra)) as (N2 & _ & Q2).
  specialize (Q1 (N1 + N2)%nat ltac:(lia)). specialize (Q2 (N1 + N2)%nat ltac:(lia)). cbn [fst snd] in Q2. rewrite rs_swap in Q2.
  rewrite (rs_ext _ _ (fun i => rs (N1 + N2) (fun j => cw a b (N1 + N2) * (cw c d (N1 + N2) * g (mid a b (N1 + N2) i, mid c d (N1 + N2) j))))) in Q2 by (intros i _; apply rs_ext; intros j _; ring).
  set (Z := rs _ _) in *. rewrite Rabs_minus_sym in Q1. apply Rle_lt_trans with (eps / 3 + eps / 3); [|lra]. now apply (via _ Z).
Qed.
Lemma RInt_rev (f : R -> R) a b : ex_RInt f a b -> RInt f b a = - RInt f a b.
Proof. intros H. symmetry. exact (opp_RInt_swap (V := R_CompleteNormedModule) f a b H). Qed.
Lemma RInt_pt (f : R -> R) a : RInt f a a = 0. Proof. exact (RInt_point (V := R_CompleteNormedModule) a f). Qed.
Lemma RInt_nul a b : RInt (fun _ : R => 0) a b = 0.
Proof. rewrite (RInt_const (V := R_CompleteNormedModule) a b 0). exact (Rmult_0_r (b - a)). Qed.
Lemma RInt_fext (f g : R -> R) a b : (forall x, f x = g x) -> RInt f a b = RInt g a b.
Proof. intros H. apply (RInt_ext (V := R_CompleteNormedModule)). intros x _. apply H. Qed.
Lemma RInt_neg (f : R -> R) a b : ex_RInt f a b -> RInt (fun x => - f x) a b = - RInt f a b.
Proof. intros H. exact (RInt_opp (V := R_CompleteNormedModule) f a b H). Qed.
Lemma fubini_ac (g : R * R -> R) a b c d : UC P2 Rs g -> a < b -> RInt (fun u => RInt (fun v => g (u, v)) c d) a b = RInt (fun v => RInt (fun u => g (u, v)) a b) c d.
Proof.
  intros G Hab. destruct (Rtotal_order c d) as [H|[->|H]].
  - now apply fubini_lt.
  - rewrite RInt_pt. rewrite (RInt_fext _ (fun _ => 0)) by (intros; apply RInt_pt). apply RInt_nul.
  - rewrite (RInt_fext _ (fun u => - RInt (fun v => g (u, v)) d c)) by (intros u; apply RInt_rev; now apply ex_row). rewrite RInt_neg by (apply ex_int1, UC_row, G).
    rewrite (RInt_rev _ d c) by (apply ex_int1; exact (UC_row (fun p => g (snd p, fst p)) a b (UC_col g G))). f_equal. now apply fubini_lt.
Qed.
Lemma fubini (g : R * R -> R) a b c d : UC P2 Rs g -> RInt (fun u => RInt (fun v => g (u, v)) c d) a b = RInt (fun v => RInt (fun u => g (u, v)) a b) c d.
Proof.
  intros G. destruct (Rtotal_order a b) as [H|[->|H]].
  - now apply fubini_ac.
  - rewrite RInt_pt. symmetry. rewrite (RInt_fext _ (fun _ => 0)) by (intros; apply RInt_pt). apply RInt_nul.
  - symmetry. rewrite (RInt_fext _ (fun v => - RInt (fun u => g (u, v)) b a)) by (intros v; apply RInt_rev; exact (ex_row (fun p => g (snd p, fst p)) v b a (UC_col g G))). rewrite RInt_neg by (apply ex_int1; exact (UC_row (fun p => g (snd p, fst p)) b a (UC_col g G))).
    rewrite (RInt_rev _ b a) by (apply ex_int1, UC_row, G). f_equal. symmetry. now apply fubini_ac.
Qed.

(* ---- a function with continuous partial derivatives: from the quarter circle to polar coordinates ---- *)
Lemma UC_cont2 (g : R * R -> R) x y : UC P2 Rs g -> continuous (fun u : R * R => g (fst u, snd u)) (x, y).
Proof.
  intros H. destruct (H (Rabs x + Rabs y + 2)) as (_ & L). cbn in *.
  apply (filterlim_locally (fun u : R * R => g (fst u, snd u)) (g (x, y))). intros eps. assert (E := cond_pos eps). destruct (L (eps / 2) ltac:(lra)) as (d & Hd & Q).
  assert (Hd' : 0 < Rmin 1 (d / 2)) by (apply Rmin_pos; lra).
  exists (mkposreal _ Hd'). intros [s t] [Hs Ht]. change (Rabs (s - x) < Rmin 1 (d / 2)) in Hs. change (Rabs (t - y) < Rmin 1 (d / 2)) in Ht. change (Rabs (g (s, t) - g (x, y)) < eps).
  assert (A1 := Rmin_l 1 (d / 2)). assert (A2 := Rmin_r 1 (d / 2)).
  assert (Hn : forall a b, Rabs (b - a) < 1 -> Rabs b <= Rabs a + 1) by (intros a b K; replace b with (a + (b - a)) by ring; eapply Rle_trans; [apply Rabs_triang|lra]).
  assert (N1 := Hn x s ltac:(lra)). assert (N2 := Hn y t ltac:(lra)). assert (P1 := Rabs_pos x). assert (P2' := Rabs_pos y).
  specialize (Q (s, t) (x, y)). cbn in Q. eapply Rle_lt_trans; [apply Q; lra|lra].
Qed.
Ltac uc := repeat first [apply UC_sub | apply UC_add | apply UC_mult | apply UC_opp | apply UC_cos | apply UC_sin | apply UC_cst | apply (UC_fst Rs Rs) | apply (UC_snd Rs Rs) | match goal with H : UC P2 Rs ?g |- UC ?X Rs (fun x => ?g (_, _)) => apply (UC_two X g _ _ H) end].
Section Smooth.
Variables (K Kx Ky : R * R -> R).
Hypotheses (UK : UC P2 Rs K) (UKx : UC P2 Rs Kx) (UKy : UC P2 Rs Ky).
Hypotheses (DX : forall x y, is_derive (fun t => K (t, y)) x (Kx (x, y))) (DY : forall x y, is_derive (fun t => K (x, t)) y (Ky (x, y))).
Lemma chain (a b : R -> R) (t a' b' : R) : is_derive a t a' -> is_derive b t b' -> is_derive (fun t => K (a t, b t)) t (Kx (a t, b t) * a' + Ky (a t, b t) * b').
Proof.
  intros HA HB. apply is_derive_Reals. apply (derivable_pt_lim_comp_2d (fun x y => K (x, y))); [|now apply is_derive_Reals|now apply is_derive_Reals].
  apply filterdiff_differentiable_pt_lim. apply (is_derive_filterdiff (fun x y => K (x, y)) (a t) (b t) (fun x y => Kx (x, y)) (Ky (a t, b t))).
  - apply filter_forall. intros [u v]. cbn. apply DX.
  - apply DY.
  - apply (UC_cont2 Kx), UKx.
Qed.
Variables (beta k : R).
Hypothesis Hk : k * sin beta = cos beta.
Let dK (r th : R) : R := K (r * cos th, r * sin th) - K (k * (r * sin th), r * sin th).
Let Dr (r th : R) : R := (Kx (r * cos th, r * sin th) * cos th + Ky (r * cos th, r * sin th) * sin th) - (Kx (k * (r * sin th), r * sin th) * (k * sin th) + Ky (k * (r * sin th), r * sin th) * sin th).
Let Dt (r th : R) : R := (Kx (r * cos th, r * sin th) * (- (r * sin th)) + Ky (r * cos th, r * sin th) * (r * cos th)) - (Kx (k * (r * sin th), r * sin th) * (k * (r * cos th)) + Ky (k * (r * sin th), r * sin th) * (r * cos th)).
Lemma dK_r r th : is_derive (fun r => dK r th) r (Dr r th).
Proof.
  apply (is_derive_minus (K := R_AbsRing) (V := R_NormedModule) (fun r => K (r * cos th, r * sin th)) (fun r => K (k * (r * sin th), r * sin th))).
  - apply (chain (fun r => r * cos th) (fun r => r * sin th)); auto_derive; trivial; ring.
  - apply (chain (fun r => k * (r * sin th)) (fun r => r * sin th)); auto_derive; trivial; ring.
Qed.
Lemma dK_t r th : is_derive (fun th => dK r th) th (Dt r th).
Proof.
  apply (is_derive_minus (K := R_AbsRing) (V := R_NormedModule) (fun th => K (r * cos th, r * sin th)) (fun th => K (k * (r * sin th), r * sin th))).
  - apply (chain (fun th => r * cos th) (fun th => r * sin th)); auto_derive; trivial; ring.
  - apply (chain (fun th => k * (r * sin th)) (fun th => r * sin th)); auto_derive; trivial; ring.
Qed.
Let E (p : R * R) : R := cos (fst p) * dK (snd p) (fst p) + snd p * cos (fst p) * Dr (snd p) (fst p).
Let T (p : R * R) : R := cos (fst p) * dK (snd p) (fst p) + sin (fst p) * Dt (snd p) (fst p).
Let J (p : R * R) : R := snd p * Kx (snd p * cos (fst p), snd p * sin (fst p)).
Lemma UE : UC P2 Rs E. Proof. unfold E, dK, Dr. uc. Qed.
Lemma UT : UC P2 Rs T. Proof. unfold T, dK, Dt. uc. Qed.
Lemma UJ : UC P2 Rs J. Proof. unfold J. uc. Qed.
Lemma ETJ p : E p = T p + J p.
Proof.
  unfold E, T, J, Dr, Dt. destruct p as [th r]. cbn [fst snd]. assert (Q := sin2_cos2 th). unfold Rsqr in Q. set (a := Kx _). set (b := Ky _). set (a' := Kx _). set (b' := Ky _). clearbody a b a' b'. set (s := sin th) in *. set (c := cos th) in *. clearbody s c.
  replace (r * a) with (r * a * (s * s + c * c)) by (rewrite Q; ring). ring.
Qed.
Lemma E_r rho th : RInt (fun r => E (th, r)) 0 rho = rho * cos th * dK rho th.
Proof.
  assert (H : is_RInt (fun r => E (th, r)) 0 rho (minus (rho * cos th * dK rho th) (0 * cos th * dK 0 th))).
  { apply (is_RInt_derive (V := R_CompleteNormedModule) (fun r => r * cos th * dK r th)).
    - intros r _. unfold E. cbn [fst snd]. apply is_derive_Reals. apply (derivable_pt_lim_mult (fun r => r * cos th) (fun r => dK r th) r (cos th) (Dr r th)); [|apply is_derive_Reals, dK_r]. apply is_derive_Reals. auto_derive; trivial; ring.
    - intros r _. exact (UC_continuous Rs E th r UE). }
  apply (is_RInt_unique (V := R_CompleteNormedModule)) in H. rewrite H. unfold minus, plus, opp; cbn. ring.
Qed.
Lemma T_t r : RInt (fun th => T (th, r)) 0 beta = 0.
Proof.
  assert (H : is_RInt (fun th => T (th, r)) 0 beta (minus (sin beta * dK r beta) (sin 0 * dK r 0))).
  { apply (is_RInt_derive (V := R_CompleteNormedModule) (fun th => sin th * dK r th)).
    - intros th _. unfold T. cbn [fst snd]. apply is_derive_Reals. apply (derivable_pt_lim_mult sin (fun th => dK r th) th (cos th) (Dt r th)); [apply derivable_pt_lim_sin|apply is_derive_Reals, dK_t].
    - intros th _. exact (UC_continuous Rs (fun p => T (snd p, fst p)) r th (UC_col T UT)). }
  apply (is_RInt_unique (V := R_CompleteNormedModule)) in H. rewrite H. unfold dK. replace (k * (r * sin beta)) with (r * cos beta) by (rewrite <- Hk; ring). rewrite sin_0. unfold minus, plus, opp; cbn. ring.
Qed.
Theorem smooth_polar rho : RInt (fun th => rho * cos th * dK rho th) 0 beta = RInt (fun th => RInt (fun r => r * Kx (r * cos th, r * sin th)) 0 rho) 0 beta.
Proof.
  rewrite (RInt_fext _ (fun th => RInt (fun r => T (th, r)) 0 rho + RInt (fun r => J (th, r)) 0 rho)).
  2:{ intros th. rewrite <- E_r. rewrite (RInt_fext _ (fun r => T (th, r) + J (th, r))) by (intros r; apply ETJ). apply (RInt_plus (V := R_CompleteNormedModule)); [exact (ex_row T th 0 rho UT)|exact (ex_row J th 0 rho UJ)]. }
  assert (S : RInt (fun th => RInt (fun r => T (th, r)) 0 rho + RInt (fun r => J (th, r)) 0 rho) 0 beta = RInt (fun th => RInt (fun r => T (th, r)) 0 rho) 0 beta + RInt (fun th => RInt (fun r => J (th, r)) 0 rho) 0 beta).
  { apply (RInt_plus (V := R_CompleteNormedModule)); apply ex_int1; [apply (UC_row T _ _ UT)|apply (UC_row J _ _ UJ)]. }
  rewrite S, (fubini T 0 beta 0 rho UT). rewrite (RInt_fext (fun v => RInt (fun u => T (u, v)) 0 beta) (fun _ => 0)) by (intros; apply T_t). rewrite RInt_nul, Rplus_0_l. reflexivity.
Qed.
Hypothesis Hb : 0 <= beta <= PI / 2.
Theorem smooth_cart rho : 0 <= rho -> RInt (fun y => K (sqrt (rho ^ 2 - y ^ 2), y) - K (k * y, y)) 0 (rho * sin beta) = RInt (fun th => rho * cos th * dK rho th) 0 beta.
Proof.
  intros Hr. set (f := fun y => K (sqrt (rho ^ 2 - y ^ 2), y) - K (k * y, y)).
  assert (U0 : UC Rs Rs (fun y => y)) by (apply UC_LL, LL_id). assert (US : UC Rs Rs (fun y => sqrt (rho ^ 2 - y ^ 2))) by now apply UC_chord.
  assert (UF : UC Rs Rs f). { unfold f. apply UC_sub; [now apply (UC_two Rs K)|apply (UC_two Rs K); [exact UK| |exact U0]]. apply UC_mult; [apply UC_cst|exact U0]. }
  transitivity (RInt f (rho * sin 0) (rho * sin beta)); [now rewrite sin_0, Rmult_0_r|].
  etransitivity; [symmetry; apply (RInt_comp (V := R_CompleteNormedModule) f (fun th => rho * sin th) (fun th => rho * cos th) 0 beta)|].
  - intros th _. apply cont1, UF.
  - intros th _. split; [auto_derive; trivial; ring|]. apply (cont1 (fun th => rho * cos th)). apply UC_mult; [apply UC_cst|apply UC_cos, U0].
  - apply (RInt_ext (V := R_CompleteNormedModule)). intros th Ht. rewrite Rmin_left, Rmax_right in Ht by lra. change (rho * cos th * f (rho * sin th) = rho * cos th * dK rho th). f_equal. unfold f, dK. f_equal. f_equal. f_equal.
    assert (Q := sin2_cos2 th). unfold Rsqr in Q. replace (rho ^ 2 - (rho * sin th) ^ 2) with ((rho * cos th) ^ 2). 2:{ replace (rho ^ 2) with (rho ^ 2 * (sin th * sin th + cos th * cos th)) by (rewrite Q; ring). ring. }
    apply sqrt_pow2. apply Rmult_le_pos; [exact Hr|apply cos_ge_0; lra].
Qed.
End Smooth.

(* ---- smoothing along y ---- *)
Lemma der_int (g : R -> R) a (x : R) : UC Rs Rs g -> is_derive (fun t => RInt g a t) x (g x).
Proof.
  intros G. apply (is_derive_RInt (V := R_NormedModule) g (fun t => RInt g a t) a x); [|now apply cont1]. apply filter_forall. intros b. apply (RInt_correct (V := R_CompleteNormedModule)). now apply ex_int1.
Qed.
Section Mollify.
Variables (f : R * R -> R) (h : R).
Hypotheses (UF : UC P2 Rs f) (Hh : 0 < h).
Definition fh (p : R * R) : R := / h * RInt (fun s => f (fst p, s)) (snd p) (snd p + h).
Definition Kh (p : R * R) : R := RInt (fun t => fh (t, snd p)) 0 (fst p).
Definition Phi (p : R * R) : R := RInt (fun t => f (t, snd p)) 0 (fst p).
Definition Kyh (p : R * R) : R := / h * (Phi (fst p, snd p + h) - Phi (fst p, snd p)).
Lemma U_fh : UC P2 Rs fh.
Proof.
  unfold fh. apply UC_mult; [apply UC_cst|]. apply (UC_int P2 (fun q : (R * R) * R => f (fst (fst q), snd q)) snd (fun p => snd p + h)).
  - apply (UC_two (pprod P2 Rs) f (fun q => fst (fst q)) snd UF); [exact (UC_comp (pprod P2 Rs) P2 Rs fst fst (UC_fst P2 Rs) (UC_fst Rs Rs))|apply (UC_snd P2 Rs)].
  - apply (UC_snd Rs Rs).
  - apply UC_add; [apply (UC_snd Rs Rs)|apply UC_cst].
Qed.
Lemma U_prim (g : R * R -> R) : UC P2 Rs g -> UC P2 Rs (fun p => RInt (fun t => g (t, snd p)) 0 (fst p)).
Proof.
  intros G. apply (UC_int P2 (fun q : (R * R) * R => g (snd q, snd (fst q))) (fun _ => 0) fst).
  - apply (UC_two (pprod P2 Rs) g snd (fun q => snd (fst q)) G); [apply (UC_snd P2 Rs)|exact (UC_comp (pprod P2 Rs) P2 Rs fst snd (UC_fst P2 Rs) (UC_snd Rs Rs))].
  - apply UC_cst.
  - apply (UC_fst Rs Rs).
Qed.
Lemma U_Kh : UC P2 Rs Kh. Proof. exact (U_prim fh U_fh). Qed.
Lemma U_Phi : UC P2 Rs Phi. Proof. exact (U_prim f UF). Qed.
Lemma U_Kyh : UC P2 Rs Kyh.
Proof. unfold Kyh. assert (P := U_Phi). uc. Qed.
Lemma U_slice1 (g : R * R -> R) y : UC P2 Rs g -> UC Rs Rs (fun t => g (t, y)).
Proof. intros G. apply (UC_two Rs g (fun t => t) (fun _ => y) G); [apply UC_LL, LL_id|apply UC_cst]. Qed.
Lemma U_slice2 (g : R * R -> R) x : UC P2 Rs g -> UC Rs Rs (fun t => g (x, t)).
Proof. intros G. apply (UC_two Rs g (fun _ => x) (fun t => t) G); [apply UC_cst|apply UC_LL, LL_id]. Qed.
Lemma K_dx x y : is_derive (fun t => Kh (t, y)) x (fh (x, y)).
Proof. unfold Kh. cbn [fst snd]. apply (der_int (fun t => fh (t, y)) 0 x). apply U_slice1, U_fh. Qed.
Lemma K_alt x y : Kh (x, y) = / h * (RInt (fun s => Phi (x, s)) 0 (y + h) - RInt (fun s => Phi (x, s)) 0 y).
Proof.
  unfold Kh. cbn [fst snd]. unfold fh. cbn [fst snd].
  assert (E : RInt (fun t => / h * RInt (fun s => f (t, s)) y (y + h)) 0 x = / h * RInt (fun t => RInt (fun s => f (t, s)) y (y + h)) 0 x).
  { apply (RInt_scal (V := R_CompleteNormedModule) (fun t => RInt (fun s => f (t, s)) y (y + h)) 0 x (/ h)). apply ex_int1, UC_row, UF. }
  rewrite E, (fubini f 0 x y (y + h) UF). f_equal. change (fun v => RInt (fun u => f (u, v)) 0 x) with (fun v => Phi (x, v)).
  assert (EX : forall a b, ex_RInt (fun v => Phi (x, v)) a b) by (intros; apply ex_int1, U_slice2, U_Phi).
  assert (C := RInt_Chasles (V := R_CompleteNormedModule) (fun v => Phi (x, v)) 0 y (y + h) (EX _ _) (EX _ _)). rewrite <- C. unfold plus; cbn. ring.
Qed.
Lemma K_dy x y : is_derive (fun t => Kh (x, t)) y (Kyh (x, y)).
Proof.
  apply (is_derive_ext (fun t => / h * (RInt (fun s => Phi (x, s)) 0 (t + h) - RInt (fun s => Phi (x, s)) 0 t))). { intros t. now rewrite K_alt. }
  unfold Kyh. cbn [fst snd]. apply is_derive_Reals. apply (derivable_pt_lim_scal (fun t => RInt (fun s => Phi (x, s)) 0 (t + h) - RInt (fun s => Phi (x, s)) 0 t)).
  apply (derivable_pt_lim_minus (fun t => RInt (fun s => Phi (x, s)) 0 (t + h)) (fun t => RInt (fun s => Phi (x, s)) 0 t)).
  - replace (Phi (x, y + h)) with (Phi (x, y + h) * (1 + 0)) by ring. apply (derivable_pt_lim_comp (fun t => t + h) (fun t => RInt (fun s => Phi (x, s)) 0 t)).
    + apply (derivable_pt_lim_plus (fun t => t) (fun _ => h)); [apply derivable_pt_lim_id|apply derivable_pt_lim_const].
    + apply is_derive_Reals, (der_int (fun s => Phi (x, s))), U_slice2, U_Phi.
  - apply is_derive_Reals, (der_int (fun s => Phi (x, s))), U_slice2, U_Phi.
Qed.
Lemma fh_near A eta d : (forall p q, Rabs (fst p) + Rabs (snd p) <= A + 1 -> Rabs (fst q) + Rabs (snd q) <= A + 1 -> Rabs (fst p - fst q) + Rabs (snd p - snd q) <= d -> Rabs (f p - f q) <= eta) -> h <= d -> h <= 1 ->
  forall x y, Rabs x + Rabs y <= A -> Rabs (fh (x, y) - f (x, y)) <= eta.
Proof.
  intros Q Hd H1 x y Hxy. unfold fh. cbn [fst snd]. assert (EX : ex_RInt (fun s => f (x, s)) y (y + h)) by now apply ex_row.
  assert (E : RInt (fun s => f (x, s) - f (x, y)) y (y + h) = RInt (fun s => f (x, s)) y (y + h) - h * f (x, y)).
  { assert (M := RInt_minus (V := R_CompleteNormedModule) (fun s => f (x, s)) (fun _ => f (x, y)) y (y + h) EX (ex_RInt_const (V := R_NormedModule) y (y + h) (f (x, y)))). 
    change (RInt (fun s => f (x, s) - f (x, y)) y (y + h) = RInt (fun s => f (x, s)) y (y + h) - RInt (fun _ => f (x, y)) y (y + h)) in M.
    assert (K := RInt_const (V := R_CompleteNormedModule) y (y + h) (f (x, y))). change (RInt (fun _ => f (x, y)) y (y + h) = (y + h - y) * f (x, y)) in K. change (RInt (fun s => f (x, s) - f (x, y)) y (y + h) = RInt (fun s => f (x, s)) y (y + h) - h * f (x, y) :> R). rewrite M, K. unfold Rminus. f_equal. f_equal. f_equal. ring. }
  replace (/ h * RInt (fun s => f (x, s)) y (y + h) - f (x, y)) with (/ h * RInt (fun s => f (x, s) - f (x, y)) y (y + h)) by (rewrite E; field; lra).
  rewrite Rabs_mult, (Rabs_pos_eq (/ h)) by (left; now apply Rinv_0_lt_compat).
  assert (B : Rabs (RInt (fun s => f (x, s) - f (x, y)) y (y + h)) <= Rabs (y + h - y) * eta).
  { apply RInt_abs; [apply (ex_RInt_minus (V := R_NormedModule)); [exact EX|apply ex_RInt_const]|]. intros s Hs. rewrite Rmin_left, Rmax_right in Hs by lra. apply Q; cbn [fst snd].
    - assert (Rabs s <= Rabs y + 1); [|lra]. replace s with (y + (s - y)) by ring. eapply Rle_trans; [apply Rabs_triang|]. rewrite (Rabs_pos_eq (s - y)); lra.
    - lra.
    - unfold Rminus at 1. rewrite Rplus_opp_r, Rabs_R0, (Rabs_pos_eq (s - y)); lra. }
  replace (y + h - y) with h in B by ring. rewrite (Rabs_pos_eq h) in B by lra. apply (Rmult_le_reg_l h); [exact Hh|]. rewrite <- Rmult_assoc, Rinv_r, Rmult_1_l by lra. exact B.
Qed.
End Mollify.

(* ---- the sector 0 <= angle <= beta <= pi/2 of the disc of radius rho ---- *)
Section Sector.
Variables (beta k rho : R).
Hypotheses (Hk : k * sin beta = cos beta) (Hb : 0 <= beta <= PI / 2) (Hk0 : 0 <= k) (Hr : 0 <= rho).
Definition cartI (g : R * R -> R) : R := RInt (fun y => RInt (fun x => g (x, y)) (k * y) (sqrt (rho ^ 2 - y ^ 2))) 0 (rho * sin beta).
Definition polI (g : R * R -> R) : R := RInt (fun th => RInt (fun r => r * g (r * cos th, r * sin th)) 0 rho) 0 beta.
Lemma U_cart (g : R * R -> R) : UC P2 Rs g -> UC Rs Rs (fun y => RInt (fun x => g (x, y)) (k * y) (sqrt (rho ^ 2 - y ^ 2))).
Proof.
  intros G. assert (U0 : UC Rs Rs (fun y => y)) by (apply UC_LL, LL_id). apply (UC_int Rs (fun p => g (snd p, fst p)) (fun y => k * y) (fun y => sqrt (rho ^ 2 - y ^ 2))); [now apply UC_col|apply UC_mult; [apply UC_cst|exact U0]|now apply UC_chord].
Qed.
Lemma U_pol (g : R * R -> R) : UC P2 Rs g -> UC P2 Rs (fun p => snd p * g (snd p * cos (fst p), snd p * sin (fst p))).
Proof. intros G. uc. Qed.
Lemma sector_smooth (f : R * R -> R) h : UC P2 Rs f -> 0 < h -> cartI (fh f h) = polI (fh f h).
Proof.
  intros UF Hh. unfold cartI, polI. rewrite <- (smooth_polar (Kh f h) (fh f h) (Kyh f h) (U_Kh f h UF) (U_fh f h UF) (U_Kyh f h UF) (K_dx f h UF) (K_dy f h UF) beta k Hk rho).
  rewrite <- (smooth_cart (Kh f h) (U_Kh f h UF) beta k Hb rho Hr). apply RInt_fext. intros y. unfold Kh. cbn [fst snd].
  assert (EX : forall a b, ex_RInt (fun x => fh f h (x, y)) a b) by (intros; apply ex_int1, U_slice1, U_fh, UF).
  assert (C := RInt_Chasles (V := R_CompleteNormedModule) (fun x => fh f h (x, y)) 0 (k * y) (sqrt (rho ^ 2 - y ^ 2)) (EX _ _) (EX _ _)). rewrite <- C. unfold plus; cbn. ring.
Qed.
Lemma sub_int (g1 g2 : R -> R) a b M : ex_RInt g1 a b -> ex_RInt g2 a b -> (forall t, Rmin a b <= t <= Rmax a b -> Rabs (g1 t - g2 t) <= M) -> Rabs (RInt g1 a b - RInt g2 a b) <= Rabs (b - a) * M.
Proof.
  intros E1 E2 H. assert (S := RInt_minus (V := R_CompleteNormedModule) g1 g2 a b E1 E2). change (RInt (fun t => g1 t - g2 t) a b = RInt g1 a b - RInt g2 a b) in S. rewrite <- S. apply (RInt_abs (fun t => g1 t - g2 t)); [apply (ex_RInt_minus (V := R_NormedModule)); assumption|exact H].
Qed.
Lemma sin01 : 0 <= sin beta <= 1. Proof. split; [apply sin_ge_0; lra|apply SIN_bound]. Qed.
Lemma cos01 th : Rabs (cos th) <= 1. Proof. apply Rabs_le_between. apply COS_bound. Qed.
Lemma sin01' th : Rabs (sin th) <= 1. Proof. apply Rabs_le_between. apply SIN_bound. Qed.
Lemma cart_near g1 g2 eta : UC P2 Rs g1 -> UC P2 Rs g2 -> 0 <= eta -> (forall x y, Rabs x + Rabs y <= 2 * rho -> Rabs (g1 (x, y) - g2 (x, y)) <= eta) -> Rabs (cartI g1 - cartI g2) <= rho * (rho * eta).
Proof.
  intros U1 U2 He H. unfold cartI. assert (S1 := sin01). assert (RS : 0 <= rho * sin beta <= rho) by (split; [apply Rmult_le_pos; lra|rewrite <- (Rmult_1_r rho) at 2; apply Rmult_le_compat_l; lra]).
  eapply Rle_trans; [apply sub_int; [apply ex_int1, U_cart, U1|apply ex_int1, U_cart, U2|]|].
  - intros y Hy. rewrite Rmin_left, Rmax_right in Hy by lra. assert (CH := chord_le rho y Hr). assert (C0 := sqrt_pos (rho ^ 2 - y ^ 2)).
    assert (KY : 0 <= k * y <= rho). { split; [apply Rmult_le_pos; lra|]. apply Rle_trans with (k * (rho * sin beta)); [apply Rmult_le_compat_l; lra|]. replace (k * (rho * sin beta)) with (rho * cos beta) by (rewrite <- Hk; ring). assert (B := COS_bound beta). rewrite <- (Rmult_1_r rho) at 2. apply Rmult_le_compat_l; lra. }
    eapply Rle_trans; [apply (sub_int _ _ _ _ eta); [apply ex_int1, U_slice1, U1|apply ex_int1, U_slice1, U2|]|].
    + intros x Hx. apply H. assert (0 <= x <= rho). { revert Hx. unfold Rmin, Rmax. destruct (Rle_dec (k * y) (sqrt (rho ^ 2 - y ^ 2))); lra. } rewrite !Rabs_pos_eq by lra. lra.
    + apply Rmult_le_compat_r; [exact He|]. instantiate (1 := rho). apply Rabs_le_between. lra.
  - rewrite Rminus_0_r, Rabs_pos_eq by lra. apply Rmult_le_compat_r; [apply Rmult_le_pos; lra|lra].
Qed.
Lemma pol_near g1 g2 eta : UC P2 Rs g1 -> UC P2 Rs g2 -> 0 <= eta -> (forall x y, Rabs x + Rabs y <= 2 * rho -> Rabs (g1 (x, y) - g2 (x, y)) <= eta) -> Rabs (polI g1 - polI g2) <= beta * (rho * (rho * eta)).
Proof.
  intros U1 U2 He H. unfold polI. assert (V1 := U_pol g1 U1). assert (V2 := U_pol g2 U2).
  eapply Rle_trans; [apply (sub_int _ _ _ _ (rho * (rho * eta))); [apply ex_int1; exact (UC_row _ 0 rho V1)|apply ex_int1; exact (UC_row _ 0 rho V2)|]|].
  - intros th _. eapply Rle_trans; [apply (sub_int _ _ _ _ (rho * eta)); [exact (ex_row _ th 0 rho V1)|exact (ex_row _ th 0 rho V2)|]|].
    + intros r Hx. rewrite Rmin_left, Rmax_right in Hx by lra. rewrite <- Rmult_minus_distr_l, Rabs_mult, (Rabs_pos_eq r) by lra. apply Rmult_le_compat; [lra|apply Rabs_pos|lra|]. apply H. rewrite !Rabs_mult, (Rabs_pos_eq r) by lra.
      assert (A := cos01 th). assert (B := sin01' th). assert (r * Rabs (cos th) <= rho * 1) by (apply Rmult_le_compat; [lra|apply Rabs_pos|lra|lra]). assert (r * Rabs (sin th) <= rho * 1) by (apply Rmult_le_compat; [lra|apply Rabs_pos|lra|lra]). lra.
    + rewrite Rminus_0_r, Rabs_pos_eq by lra. lra.
  - rewrite Rminus_0_r, Rabs_pos_eq by lra. lra.
Qed.
Theorem sector_polar (f : R * R -> R) : UC P2 Rs f -> cartI f = polI f.
Proof.
  intros UF. apply cond_eq. intros eps He. set (C := rho * rho + beta * (rho * rho) + 1). assert (HC : 0 < C). { unfold C. assert (0 <= rho * rho) by (now apply Rmult_le_pos). assert (0 <= beta * (rho * rho)) by (apply Rmult_le_pos; lra). lra. }
  set (eta := eps / (2 * C)). assert (Het : 0 < eta) by (apply Rdiv_lt_0_compat; lra). destruct (UF (2 * rho + 1)) as (_ & L). destruct (L eta Het) as (d & Hd & Q). cbn in Q.
  set (h := Rmin d 1). assert (Hh : 0 < h) by (apply Rmin_pos; lra).
  assert (NE := fh_near f h UF Hh (2 * rho) eta d Q (Rmin_l _ _) (Rmin_r _ _)). assert (U' := U_fh f h UF).
  assert (N1 := cart_near _ _ eta U' UF ltac:(lra) NE). assert (N2 := pol_near _ _ eta U' UF ltac:(lra) NE). rewrite (sector_smooth f h UF Hh) in N1. rewrite Rabs_minus_sym in N1.
  apply Rle_lt_trans with (rho * (rho * eta) + beta * (rho * (rho * eta))); [now apply (via _ (polI (fh f h)))|].
  assert (E : eps = 2 * C * eta) by (unfold eta; field; lra). rewrite E. unfold C.
  assert (0 <= rho * (rho * eta)) by (apply Rmult_le_pos; [lra|apply Rmult_le_pos; lra]). assert (0 <= beta * (rho * (rho * eta))) by (apply Rmult_le_pos; lra).
  replace (2 * (rho * rho + beta * (rho * rho) + 1) * eta) with (2 * (rho * (rho * eta)) + 2 * (beta * (rho * (rho * eta))) + 2 * eta) by ring. lra.
Qed.
End Sector.
