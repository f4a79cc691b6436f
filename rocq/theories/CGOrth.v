(* Orthonormality of the Clebsch-Gordan coefficients computed by newt/clebschGordan.py. *)
From Verif Require Import CGSpec ClebschGordanProofs Props_CG.
From Verif Require Import Cplx.
Open Scope R_scope.

(* ---- real sums over integer ranges ---- *)
Lemma rsum_plus a b f g : rsum a b (fun k => f k + g k) = rsum a b f + rsum a b g.
Proof. apply RtoC_inj. rewrite RtoC_plus, !rsum_zsum, <- zsum_plus. apply zsum_ext. intros; now rewrite RtoC_plus. Qed.
Lemma rsum_minus a b f g : rsum a b (fun k => f k - g k) = rsum a b f - rsum a b g.
Proof. apply RtoC_inj. rewrite RtoC_minus, !rsum_zsum, <- zsum_minus. apply zsum_ext. intros; now rewrite RtoC_minus. Qed.
Lemma rsum_0 a b f : (forall k, (a <= k < b)%Z -> f k = 0) -> rsum a b f = 0.
Proof. intros H. apply RtoC_inj. rewrite rsum_zsum. apply zsum_0. intros k Hk. now rewrite H. Qed.
Lemma rsum_shift d a b f : rsum a b f = rsum (a + d) (b + d) (fun k => f (k - d)%Z).
Proof. apply RtoC_inj. rewrite !rsum_zsum. apply zsum_shift. Qed.
Lemma rsum_swap a b c d (f : Z -> Z -> R) : rsum a b (fun i => rsum c d (f i)) = rsum c d (fun j => rsum a b (fun i => f i j)).
Proof.
  apply RtoC_inj. rewrite !rsum_zsum. rewrite (zsum_ext _ _ _ (fun i => zsum c d (fun j => RtoC (f i j)))) by (intros; apply rsum_zsum).
  rewrite zsum_swap. apply zsum_ext. intros. now rewrite rsum_zsum.
Qed.
Lemma rsum_scal_r a b c f : rsum a b (fun k => f k * c) = rsum a b f * c.
Proof. rewrite Rmult_comm, <- rsum_scal. apply rsum_ext. intros; ring. Qed.
Lemma rsum_single a b k0 f : (a <= k0 < b)%Z -> (forall k, (a <= k < b)%Z -> k <> k0 -> f k = 0) -> rsum a b f = f k0.
Proof. intros Hk H. apply RtoC_inj. rewrite rsum_zsum. rewrite (zsum_single a b k0); auto. intros k Ha Hb. now rewrite H. Qed.
(* two ranges that both contain the support *)
Lemma rsum_supp a b c d f : (forall k, f k <> 0 -> (a <= k < b)%Z /\ (c <= k < d)%Z) -> rsum a b f = rsum c d f.
Proof.
  intros H. assert (Z0 : forall k, ~ ((a <= k < b)%Z /\ (c <= k < d)%Z) -> f k = 0).
  { intros k N. destruct (Req_dec (f k) 0); [assumption|]. exfalso. auto. }
  apply RtoC_inj. rewrite !rsum_zsum.
  transitivity (zsum (Z.min a c) (Z.max b d) (fun k => RtoC (f k))); [|symmetry]; apply zsum_supp; intros k Hk; try lia; intros; rewrite Z0; auto; lia.
Qed.

(* ---- the sum in Racah's formula and its ladder relation ---- *)
Lemma if_rec n : IZR n * invfact n = invfact (n - 1).
Proof.
  unfold invfact. destruct (Z.ltb_spec n 0), (Z.ltb_spec (n - 1) 0); try lia; try ring.
  - replace n with 0%Z by lia. ring.
  - rewrite (zfact_rec n) by lia. field. split; [apply zfact_neq0|apply not_0_IZR; lia].
Qed.
Definition wt (A X P Q Y k : Z) : R :=
  sgnR k * invfact k * invfact (A - k) * invfact (P - k) * invfact (Q - k) * invfact (X + k) * invfact (Y + k).
Definition wsum (A X P Q Y : Z) : R := rsum (-1) (A + 2) (wt A X P Q Y).
Lemma wt_0 A X P Q Y k : (k < 0 \/ A - k < 0 \/ P - k < 0 \/ Q - k < 0 \/ X + k < 0 \/ Y + k < 0)%Z -> wt A X P Q Y k = 0.
Proof. intros H. unfold wt. destruct H as [H|[H|[H|[H|[H|H]]]]]; rewrite (invfact_neg _ H); ring. Qed.
Lemma wsum_0 A X P Q Y : (P < 0 \/ Q < 0 \/ X + A < 0 \/ Y + A < 0 \/ X + Q < 0 \/ Y + P < 0)%Z -> wsum A X P Q Y = 0.
Proof. intros H. apply rsum_0. intros k Hk. apply wt_0. lia. Qed.
Lemma wsum_range A X P Q Y a b : (a <= 0)%Z -> (A < b)%Z -> rsum a b (wt A X P Q Y) = wsum A X P Q Y.
Proof.
  intros Ha Hb. apply rsum_supp. intros k N. destruct (Z_lt_dec k 0); [exfalso; apply N, wt_0; lia|].
  destruct (Z_lt_dec (A - k) 0); [exfalso; apply N, wt_0; lia|]. lia.
Qed.
Lemma wsum_ladder A X P Q Y :
  IZR (P + 1) * wsum A (X - 1) (P + 1) Q Y + IZR (Y + 1 + A) * wsum A X P (Q - 1) (Y + 1) = IZR (X + Q) * wsum A X P Q Y.
Proof.
  rewrite <- (wsum_range A (X - 1) (P + 1) Q Y 0 (A + 3)), <- (wsum_range A X P (Q - 1) (Y + 1) (-1) (A + 2)), <- (wsum_range A X P Q Y 0 (A + 2)) by lia.
  rewrite <- !rsum_scal.
  (* split the factors *)
  assert (E1 : rsum 0 (A + 3) (fun k => IZR (P + 1) * wt A (X - 1) (P + 1) Q Y k) =
    rsum 0 (A + 2) (fun k => IZR (X + k) * wt A X P Q Y k) +
    rsum 0 (A + 3) (fun k => sgnR k * invfact (k - 1) * invfact (A - k) * invfact (P + 1 - k) * invfact (Q - k) * invfact (X - 1 + k) * invfact (Y + k))).
  { rewrite (rsum_supp 0 (A + 2) 0 (A + 3)).
    2:{ intros k N. destruct (Z_lt_dec k 0); [exfalso; apply N; rewrite wt_0 by lia; ring|]. destruct (Z_lt_dec (A - k) 0); [exfalso; apply N; rewrite wt_0 by lia; ring|]. lia. }
    rewrite <- rsum_plus. apply rsum_ext. intros k Hk. unfold wt. rewrite <- (if_rec k).
    replace (X - 1 + k)%Z with (X + k - 1)%Z by ring. rewrite <- (if_rec (X + k)).
    replace (P - k)%Z with (P + 1 - k - 1)%Z by ring. rewrite <- (if_rec (P + 1 - k)).
    replace (IZR (P + 1)) with (IZR (P + 1 - k) + IZR k) by (rewrite <- plus_IZR; f_equal; ring). ring. }
  assert (E2 : rsum (-1) (A + 2) (fun k => IZR (Y + 1 + A) * wt A X P (Q - 1) (Y + 1) k) =
    rsum 0 (A + 2) (fun k => IZR (Q - k) * wt A X P Q Y k) +
    rsum (-1) (A + 2) (fun k => sgnR k * invfact k * invfact (A - k - 1) * invfact (P - k) * invfact (Q - 1 - k) * invfact (X + k) * invfact (Y + 1 + k))).
  { rewrite (rsum_supp 0 (A + 2) (-1) (A + 2)).
    2:{ intros k N. destruct (Z_lt_dec k 0); [exfalso; apply N; rewrite wt_0 by lia; ring|]. destruct (Z_lt_dec (A - k) 0); [exfalso; apply N; rewrite wt_0 by lia; ring|]. lia. }
    rewrite <- rsum_plus. apply rsum_ext. intros k Hk. unfold wt. rewrite <- (if_rec (A - k)).
    replace (Q - 1 - k)%Z with (Q - k - 1)%Z by ring. rewrite <- (if_rec (Q - k)).
    replace (Y + k)%Z with (Y + 1 + k - 1)%Z by ring. rewrite <- (if_rec (Y + 1 + k)).
    replace (IZR (Y + 1 + A)) with (IZR (Y + 1 + k) + IZR (A - k)) by (rewrite <- plus_IZR; f_equal; ring). ring. }
  rewrite E1, E2.
  (* the remainders cancel after a shift *)
  rewrite (rsum_shift 1 (-1) (A + 2)). change (-1 + 1)%Z with 0%Z. replace (A + 2 + 1)%Z with (A + 3)%Z by ring.
  match goal with |- ?a + ?b + (?c + ?d) = _ => assert (E3 : b + d = 0) end.
  { rewrite <- rsum_plus. apply rsum_0. intros k Hk.
    replace (A - (k - 1) - 1)%Z with (A - k)%Z by ring. replace (P - (k - 1))%Z with (P + 1 - k)%Z by ring. replace (Q - 1 - (k - 1))%Z with (Q - k)%Z by ring.
    replace (X + (k - 1))%Z with (X - 1 + k)%Z by ring. replace (Y + 1 + (k - 1))%Z with (Y + k)%Z by ring.
    rewrite (sgnR_sub k 1). change (sgnR 1) with (-1). ring. }
  match goal with |- ?a + ?b + (?c + ?d) = _ => transitivity (a + c + (b + d)); [ring|] end. rewrite E3, Rplus_0_r, <- rsum_plus. apply rsum_ext. intros k Hk.
  rewrite <- Rmult_plus_distr_r, <- plus_IZR. do 2 f_equal. ring.
Qed.

(* ---- coefficients with M = m1 + m2, for all integers m1, m2 ---- *)
Definition cg (j1 j2 J m1 m2 : Z) : R := cgCoeff j1 j2 m1 m2 J (m1 + m2).
Definition tri_ok (j1 j2 J : Z) : Prop := (0 <= j1 /\ 0 <= j2 /\ Z.abs (j1 - j2) <= J <= j1 + j2)%Z.
Definition sf (n : Z) : R := sqrt (zfact n).
Definition W (j1 j2 J m1 m2 : Z) : R := wsum (j1 + j2 - J) (J - j2 + m1) (j1 - m1) (j2 + m2) (J - j1 - m2).
Lemma W_0 j1 j2 J m1 m2 : (j1 < Z.abs m1 \/ j2 < Z.abs m2 \/ J < Z.abs (m1 + m2))%Z -> W j1 j2 J m1 m2 = 0.
Proof. intros H. apply wsum_0. lia. Qed.
Lemma W_ladder j1 j2 J m1 m2 :
  IZR (j1 - m1 + 1) * W j1 j2 J (m1 - 1) m2 + IZR (j2 - m2 + 1) * W j1 j2 J m1 (m2 - 1) = IZR (J + (m1 + m2)) * W j1 j2 J m1 m2.
Proof.
  assert (E := wsum_ladder (j1 + j2 - J) (J - j2 + m1) (j1 - m1) (j2 + m2) (J - j1 - m2)). unfold W.
  replace (J - j2 + (m1 - 1))%Z with (J - j2 + m1 - 1)%Z by ring. replace (j1 - (m1 - 1))%Z with (j1 - m1 + 1)%Z by ring.
  replace (j2 + (m2 - 1))%Z with (j2 + m2 - 1)%Z by ring. replace (J - j1 - (m2 - 1))%Z with (J - j1 - m2 + 1)%Z by ring.
  replace (J + (m1 + m2))%Z with (J - j2 + m1 + (j2 + m2))%Z by ring.
  replace (j2 - m2 + 1)%Z with (J - j1 - m2 + 1 + (j1 + j2 - J))%Z by ring. exact E.
Qed.
Definition fprod (j1 j2 J m1 m2 : Z) : R :=
  sf (J + (m1 + m2)) * sf (J - (m1 + m2)) * (sf (j1 - m1) * sf (j1 + m1)) * (sf (j2 - m2) * sf (j2 + m2)).
Lemma zf_ge0 n : 0 <= zfact n. Proof. left. apply zfact_pos. Qed.
Lemma cg_W j1 j2 J m1 m2 : tri_ok j1 j2 J -> cg j1 j2 J m1 m2 = sqrt (cgA j1 j2 J) * fprod j1 j2 J m1 m2 * W j1 j2 J m1 m2.
Proof.
  intros HT. unfold cg.
  destruct (Z_le_dec (Z.abs m1) j1) as [h1|h1]; [|rewrite cg_selection, W_0 by lia; ring].
  destruct (Z_le_dec (Z.abs m2) j2) as [h2|h2]; [|rewrite cg_selection, W_0 by lia; ring].
  destruct (Z_le_dec (Z.abs (m1 + m2)) J) as [h3|h3]; [|rewrite cg_selection, W_0 by lia; ring].
  destruct HT as (t1 & t2 & t3). rewrite C15_racah_formula by (unfold admissible; lia). unfold racah, fprod, sf. f_equal; [f_equal|].
  - f_equal. unfold cgA, Rdiv. ring.
  - assert (G := zf_ge0). rewrite <- !sqrt_mult by (repeat apply Rmult_le_pos; apply G). f_equal. ring.
  - unfold W. rewrite <- (wsum_range _ _ _ _ _ 0 (j1 + j2 - J + 1)) by lia. reflexivity.
Qed.
Lemma sf_rec n : (1 <= n)%Z -> sf n = sqrt (IZR n) * sf (n - 1).
Proof. intros H. unfold sf. rewrite (zfact_rec n) by lia. apply sqrt_mult; [apply IZR_le; lia|apply zf_ge0]. Qed.
Lemma sqI n : (0 <= n)%Z -> sqrt (IZR n) * sqrt (IZR n) = IZR n.
Proof. intros H. apply sqrt_sqrt. now apply IZR_le. Qed.

(* matrix element of the raising operator, sqrt((j+m)(j-m+1)), from m-1 to m *)
Definition lad (j m : Z) : R := sqrt (IZR ((j + m) * (j - m + 1))).
Lemma lad_split j m : (0 <= j + m)%Z -> (0 <= j - m + 1)%Z -> lad j m = sqrt (IZR (j + m)) * sqrt (IZR (j - m + 1)).
Proof. intros. unfold lad. rewrite mult_IZR. apply sqrt_mult; apply IZR_le; lia. Qed.
Lemma lad_0 j m : (j + m = 0 \/ j - m + 1 = 0)%Z -> lad j m = 0.
Proof. intros H. unfold lad. replace ((j + m) * (j - m + 1))%Z with 0%Z by (destruct H as [-> | ->]; ring). apply sqrt_0. Qed.
Lemma lad_sf j m : (0 < j + m)%Z -> (0 <= j - m)%Z -> lad j m * (sf (j - m + 1) * sf (j + m - 1)) = IZR (j - m + 1) * (sf (j - m) * sf (j + m)).
Proof.
  intros. rewrite lad_split by lia. rewrite (sf_rec (j - m + 1)), (sf_rec (j + m)) by lia. replace (j - m + 1 - 1)%Z with (j - m)%Z by ring.
  transitivity (sqrt (IZR (j - m + 1)) * sqrt (IZR (j - m + 1)) * (sqrt (IZR (j + m)) * sf (j - m) * sf (j + m - 1))); [ring|].
  rewrite sqI by lia. ring.
Qed.
Lemma lad_sf2 j m : (0 < j + m)%Z -> (0 <= j - m)%Z -> lad j m * (sf (j + m) * sf (j - m)) = IZR (j + m) * (sf (j + m - 1) * sf (j - m + 1)).
Proof.
  intros. rewrite lad_split by lia. rewrite (sf_rec (j - m + 1)), (sf_rec (j + m)) by lia. replace (j - m + 1 - 1)%Z with (j - m)%Z by ring.
  transitivity (sqrt (IZR (j + m)) * sqrt (IZR (j + m)) * (sqrt (IZR (j - m + 1)) * sf (j - m) * sf (j + m - 1))); [ring|].
  rewrite sqI by lia. ring.
Qed.
(* the raising relation *)
Lemma cg_raise j1 j2 J m1 m2 : tri_ok j1 j2 J ->
  lad j1 m1 * cg j1 j2 J (m1 - 1) m2 + lad j2 m2 * cg j1 j2 J m1 (m2 - 1) = lad J (m1 + m2) * cg j1 j2 J m1 m2.
Proof.
  intros HT. rewrite !cg_W by assumption.
  set (K := sf (J + (m1 + m2) - 1) * sf (J - (m1 + m2) + 1) * (sf (j1 - m1) * sf (j1 + m1)) * (sf (j2 - m2) * sf (j2 + m2))).
  assert (E1 : lad j1 m1 * (fprod j1 j2 J (m1 - 1) m2 * W j1 j2 J (m1 - 1) m2) = K * (IZR (j1 - m1 + 1) * W j1 j2 J (m1 - 1) m2)).
  { destruct (Z_lt_dec 0 (j1 + m1)) as [a|a]; [|rewrite W_0 by lia; ring].
    destruct (Z.eq_dec (j1 - m1 + 1) 0) as [b|b]; [rewrite lad_0 by lia; rewrite b; ring|].
    destruct (Z_lt_dec (j1 - m1) 0) as [c|c]; [rewrite W_0 by lia; ring|].
    unfold fprod, K. replace (J + (m1 - 1 + m2))%Z with (J + (m1 + m2) - 1)%Z by ring. replace (J - (m1 - 1 + m2))%Z with (J - (m1 + m2) + 1)%Z by ring.
    replace (j1 - (m1 - 1))%Z with (j1 - m1 + 1)%Z by ring. replace (j1 + (m1 - 1))%Z with (j1 + m1 - 1)%Z by ring.
    match goal with |- lad _ _ * (?x * ?y * ?p * ?q * ?w) = _ => transitivity (x * y * (lad j1 m1 * p) * q * w); [ring|] end.
    rewrite lad_sf by lia. ring. }
  assert (E2 : lad j2 m2 * (fprod j1 j2 J m1 (m2 - 1) * W j1 j2 J m1 (m2 - 1)) = K * (IZR (j2 - m2 + 1) * W j1 j2 J m1 (m2 - 1))).
  { destruct (Z_lt_dec 0 (j2 + m2)) as [a|a]; [|rewrite W_0 by lia; ring].
    destruct (Z.eq_dec (j2 - m2 + 1) 0) as [b|b]; [rewrite lad_0 by lia; rewrite b; ring|].
    destruct (Z_lt_dec (j2 - m2) 0) as [c|c]; [rewrite W_0 by lia; ring|].
    unfold fprod, K. replace (J + (m1 + (m2 - 1)))%Z with (J + (m1 + m2) - 1)%Z by ring. replace (J - (m1 + (m2 - 1)))%Z with (J - (m1 + m2) + 1)%Z by ring.
    replace (j2 - (m2 - 1))%Z with (j2 - m2 + 1)%Z by ring. replace (j2 + (m2 - 1))%Z with (j2 + m2 - 1)%Z by ring.
    match goal with |- lad _ _ * (?x * ?y * ?p * ?q * ?w) = _ => transitivity (x * y * p * (lad j2 m2 * q) * w); [ring|] end.
    rewrite lad_sf by lia. ring. }
  assert (E3 : lad J (m1 + m2) * (fprod j1 j2 J m1 m2 * W j1 j2 J m1 m2) = K * (IZR (J + (m1 + m2)) * W j1 j2 J m1 m2)).
  { destruct (Z_lt_dec 0 (J + (m1 + m2))) as [a|a].
    2:{ destruct (Z.eq_dec (J + (m1 + m2)) 0) as [b|b]; [rewrite lad_0 by lia; rewrite b; ring|rewrite W_0 by lia; ring]. }
    destruct (Z_lt_dec (J - (m1 + m2)) 0) as [c|c]; [rewrite W_0 by lia; ring|].
    unfold fprod, K. match goal with |- lad _ _ * (?x * ?y * ?p * ?q * ?w) = _ => transitivity ((lad J (m1 + m2) * (x * y)) * p * q * w); [ring|] end.
    rewrite lad_sf2 by lia. ring. }
  transitivity (sqrt (cgA j1 j2 J) * (lad j1 m1 * (fprod j1 j2 J (m1 - 1) m2 * W j1 j2 J (m1 - 1) m2) + lad j2 m2 * (fprod j1 j2 J m1 (m2 - 1) * W j1 j2 J m1 (m2 - 1)))); [ring|].
  rewrite E1, E2, <- Rmult_plus_distr_l, W_ladder, <- E3. ring.
Qed.
Lemma cg_opp j1 j2 J m1 m2 : cg j1 j2 J (- m1) (- m2) = sgnR (j1 + j2 - J) * cg j1 j2 J m1 m2.
Proof. unfold cg. replace (- m1 + - m2)%Z with (- (m1 + m2))%Z by ring. apply cg_flip. Qed.
Lemma lad_opp j m : lad j (- m) = lad j (m + 1).
Proof. unfold lad. do 2 f_equal. ring. Qed.
Lemma cg_lower j1 j2 J m1 m2 : tri_ok j1 j2 J ->
  lad j1 (m1 + 1) * cg j1 j2 J (m1 + 1) m2 + lad j2 (m2 + 1) * cg j1 j2 J m1 (m2 + 1) = lad J (m1 + m2 + 1) * cg j1 j2 J m1 m2.
Proof.
  intros HT. assert (E := cg_raise j1 j2 J (- m1) (- m2) HT). rewrite !lad_opp in E.
  replace (- m1 + - m2)%Z with (- (m1 + m2))%Z in E by ring. rewrite lad_opp in E.
  replace (- m1 - 1)%Z with (- (m1 + 1))%Z in E by ring. replace (- m2 - 1)%Z with (- (m2 + 1))%Z in E by ring. rewrite !cg_opp in E.
  assert (S2 := sgnR_sq (j1 + j2 - J)). set (s := sgnR _) in *. clearbody s.
  transitivity (s * (lad j1 (m1 + 1) * (s * cg j1 j2 J (m1 + 1) m2) + lad j2 (m2 + 1) * (s * cg j1 j2 J m1 (m2 + 1)))).
  - transitivity (s * s * (lad j1 (m1 + 1) * cg j1 j2 J (m1 + 1) m2 + lad j2 (m2 + 1) * cg j1 j2 J m1 (m2 + 1))); [rewrite S2; ring|ring].
  - rewrite E. transitivity (s * s * (lad J (m1 + m2 + 1) * cg j1 j2 J m1 m2)); [ring|rewrite S2; ring].
Qed.

(* ---- inner products of the coefficient vectors of fixed M ---- *)
Definition ip (j1 j2 J J' M : Z) : R := rsum (- j1) (j1 + 1) (fun m => cg j1 j2 J m (M - m) * cg j1 j2 J' m (M - m)).
Lemma cg_zero j1 j2 J m1 m2 : (j1 < Z.abs m1 \/ j2 < Z.abs m2 \/ J < Z.abs (m1 + m2))%Z -> cg j1 j2 J m1 m2 = 0.
Proof. intros H. apply cg_selection. lia. Qed.
Lemma ip_wide j1 j2 J J' M a b : (a <= - j1)%Z -> (j1 < b)%Z ->
  rsum a b (fun m => cg j1 j2 J m (M - m) * cg j1 j2 J' m (M - m)) = ip j1 j2 J J' M.
Proof.
  intros Ha Hb. apply rsum_supp. intros k N. destruct (Z_lt_dec j1 (Z.abs k)); [|lia]. exfalso. apply N. rewrite cg_zero by lia. ring.
Qed.
Lemma ip_step j1 j2 J J' M : tri_ok j1 j2 J -> tri_ok j1 j2 J' -> lad J M * ip j1 j2 J J' M = lad J' M * ip j1 j2 J J' (M - 1).
Proof.
  intros T T'. rewrite <- (ip_wide j1 j2 J J' M (- j1) (j1 + 2)), <- (ip_wide j1 j2 J J' (M - 1) (- j1 - 1) (j1 + 1)) by (destruct T; lia).
  rewrite <- !rsum_scal.
  transitivity (rsum (- j1) (j1 + 2) (fun m => lad j1 m * cg j1 j2 J (m - 1) (M - m) * cg j1 j2 J' m (M - m))
              + rsum (- j1) (j1 + 2) (fun m => lad j2 (M - m) * cg j1 j2 J m (M - m - 1) * cg j1 j2 J' m (M - m))).
  { rewrite <- rsum_plus. apply rsum_ext. intros m Hm.
    assert (E := cg_raise j1 j2 J m (M - m) T). replace (m + (M - m))%Z with M in E by ring.
    rewrite <- Rmult_assoc, <- E. ring. }
  rewrite (rsum_shift (-1) (- j1) (j1 + 2) (fun m => lad j1 m * cg j1 j2 J (m - 1) (M - m) * cg j1 j2 J' m (M - m))).
  replace (- j1 + -1)%Z with (- j1 - 1)%Z by ring. replace (j1 + 2 + -1)%Z with (j1 + 1)%Z by ring.
  rewrite (rsum_supp (- j1) (j1 + 2) (- j1 - 1) (j1 + 1) (fun m => lad j2 (M - m) * cg j1 j2 J m (M - m - 1) * cg j1 j2 J' m (M - m))).
  2:{ intros k N. destruct (Z_lt_dec j1 (Z.abs k)); [|lia]. exfalso. apply N. rewrite cg_zero by lia. ring. }
  rewrite <- rsum_plus. apply rsum_ext. intros m Hm.
  assert (E := cg_lower j1 j2 J' m (M - 1 - m) T'). replace (m + (M - 1 - m) + 1)%Z with M in E by ring.
  transitivity (cg j1 j2 J m (M - 1 - m) * (lad J' M * cg j1 j2 J' m (M - 1 - m))); [|ring]. rewrite <- E.
  replace (m - -1 - 1)%Z with m by ring. replace (M - (m - -1))%Z with (M - 1 - m)%Z by ring. replace (M - m - 1)%Z with (M - 1 - m)%Z by ring.
  replace (m - -1)%Z with (m + 1)%Z by ring. replace (M - 1 - m + 1)%Z with (M - m)%Z by ring. ring.
Qed.
Lemma lad_pos j m : (0 < j + m)%Z -> (0 < j - m + 1)%Z -> 0 < lad j m.
Proof. intros. unfold lad. apply sqrt_lt_R0, IZR_lt. nia. Qed.
Lemma ip_out j1 j2 J J' M : (J < Z.abs M \/ J' < Z.abs M)%Z -> ip j1 j2 J J' M = 0.
Proof. intros H. apply rsum_0. intros m Hm. destruct H; [rewrite (cg_zero j1 j2 J) by lia|rewrite (cg_zero j1 j2 J') by lia]; ring. Qed.
Lemma ip_comm j1 j2 J J' M : ip j1 j2 J J' M = ip j1 j2 J' J M.
Proof. apply rsum_ext. intros. ring. Qed.
Lemma ip_lt j1 j2 J J' M : tri_ok j1 j2 J -> tri_ok j1 j2 J' -> (J < J')%Z -> ip j1 j2 J J' M = 0.
Proof.
  intros T T' HJ. destruct (Z_lt_dec J (Z.abs M)) as [h|h]; [apply ip_out; lia|].
  (* downwards from M = J *)
  assert (D : forall n : nat, (Z.of_nat n <= 2 * J)%Z -> ip j1 j2 J J' (J - Z.of_nat n) = 0).
  { induction n as [|n IH]; intros Hn.
    - assert (E := ip_step j1 j2 J J' (J + 1) T T'). rewrite (lad_0 J) in E by lia. replace (J + 1 - 1)%Z with (J - Z.of_nat 0)%Z in E by lia.
      assert (P := lad_pos J' (J + 1) ltac:(lia) ltac:(lia)). symmetry in E. rewrite Rmult_0_l in E. apply Rmult_integral in E. destruct E; [lra|assumption].
    - assert (E := ip_step j1 j2 J J' (J - Z.of_nat n) T T'). rewrite IH in E by lia. replace (J - Z.of_nat n - 1)%Z with (J - Z.of_nat (S n))%Z in E by lia.
      assert (P := lad_pos J' (J - Z.of_nat n) ltac:(lia) ltac:(lia)). symmetry in E. rewrite Rmult_0_r in E. apply Rmult_integral in E. destruct E; [lra|assumption]. }
  specialize (D (Z.to_nat (J - M)) ltac:(lia)). replace (J - Z.of_nat (Z.to_nat (J - M)))%Z with M in D by lia. exact D.
Qed.
(* the norm does not depend on M *)
Lemma ip_norm_M j1 j2 J M : tri_ok j1 j2 J -> (Z.abs M <= J)%Z -> ip j1 j2 J J M = ip j1 j2 J J J.
Proof.
  intros T HM.
  assert (D : forall n : nat, (Z.of_nat n <= 2 * J)%Z -> ip j1 j2 J J (J - Z.of_nat n) = ip j1 j2 J J J).
  { induction n as [|n IH]; intros Hn; [f_equal; lia|].
    assert (E := ip_step j1 j2 J J (J - Z.of_nat n) T T). rewrite IH in E by lia. replace (J - Z.of_nat n - 1)%Z with (J - Z.of_nat (S n))%Z in E by lia.
    assert (P := lad_pos J (J - Z.of_nat n) ltac:(lia) ltac:(lia)). apply Rmult_eq_reg_l in E; [auto|lra]. }
  specialize (D (Z.to_nat (J - M)) ltac:(lia)). replace (J - Z.of_nat (Z.to_nat (J - M)))%Z with M in D by lia. exact D.
Qed.

(* ---- the norm at M = J: a convolution of binomial coefficients ---- *)
Definition hb (B a : nat) : R := INR (fact (B + a)) / (INR (fact B) * INR (fact a)).
Lemma fact_ne n : INR (fact n) <> 0. Proof. apply INR_fact_neq_0. Qed.
Lemma factS n : INR (fact (S n)) = INR (S n) * INR (fact n). Proof. change (fact (S n)) with (S n * fact n)%nat. apply mult_INR. Qed.
Lemma hb_0 B : hb B 0 = 1. Proof. unfold hb. rewrite Nat.add_0_r. cbn [fact]. change (INR 1) with 1. field. apply fact_ne. Qed.
Lemma hb_0l a : hb 0 a = 1. Proof. unfold hb. cbn [Nat.add fact]. change (INR 1) with 1. field. apply fact_ne. Qed.
Lemma hb_rec B a : hb (S B) (S a) = hb B (S a) + hb (S B) a.
Proof.
  unfold hb. replace (S B + S a)%nat with (S (B + S a)) by lia. replace (S B + a)%nat with (B + S a)%nat by lia.
  rewrite !factS. rewrite !S_INR, plus_INR, S_INR. assert (0 <= INR B) by apply pos_INR. assert (0 <= INR a) by apply pos_INR.
  field. repeat split; try apply fact_ne; lra.
Qed.
Fixpoint nsumR (n : nat) (f : nat -> R) : R := match n with O => 0 | S k => nsumR k f + f k end.
Lemma nsumR_ext n f g : (forall k, (k < n)%nat -> f k = g k) -> nsumR n f = nsumR n g.
Proof. induction n; intros H; cbn; [reflexivity|]. rewrite IHn, H by (intros; auto; apply H; lia) || idtac. reflexivity. Qed.
Lemma nsumR_plus n f g : nsumR n (fun k => f k + g k) = nsumR n f + nsumR n g.
Proof. induction n; cbn; [ring|]. rewrite IHn. ring. Qed.
Lemma conv C : forall B A, nsumR (S A) (fun a => hb C a * hb B (A - a)) = hb (B + C + 1) A.
Proof.
  induction B as [|B IHB].
  - induction A as [|A IHA].
    + cbn [nsumR]. rewrite !hb_0. ring.
    + change (nsumR (S (S A)) (fun a => hb C a * hb 0 (S A - a))) with (nsumR (S A) (fun a => hb C a * hb 0 (S A - a)) + hb C (S A) * hb 0 (S A - S A)).
      rewrite (nsumR_ext _ _ (fun a => hb C a * hb 0 (A - a))) by (intros; now rewrite !hb_0l). rewrite IHA, hb_0l.
      replace (0 + C + 1)%nat with (S C) by lia. rewrite hb_rec. ring.
  - induction A as [|A IHA].
    + cbn [nsumR]. rewrite !hb_0. ring.
    + change (nsumR (S (S A)) (fun a => hb C a * hb (S B) (S A - a))) with (nsumR (S A) (fun a => hb C a * hb (S B) (S A - a)) + hb C (S A) * hb (S B) (S A - S A)).
      rewrite (nsumR_ext _ _ (fun a => hb C a * hb B (S A - a) + hb C a * hb (S B) (A - a))).
      2:{ intros a Ha. replace (S A - a)%nat with (S (A - a)) by lia. rewrite hb_rec. ring. }
      rewrite nsumR_plus, IHA.
      assert (E := IHB (S A)). change (nsumR (S (S A)) (fun a => hb C a * hb B (S A - a))) with (nsumR (S A) (fun a => hb C a * hb B (S A - a)) + hb C (S A) * hb B (S A - S A)) in E.
      rewrite Nat.sub_diag in E |- *. rewrite hb_0 in E |- *.
      replace (S B + C + 1)%nat with (S (B + C + 1)) by lia. rewrite hb_rec. rewrite <- E. replace (S (B + C + 1)) with (S B + C + 1)%nat by lia. ring.
Qed.
Lemma rsum_nsumR n f : rsum 0 (Z.of_nat n) f = nsumR n (fun k => f (Z.of_nat k)).
Proof.
  induction n as [|n IH]; [now rewrite rsum_empty by lia|]. cbn [nsumR]. rewrite <- IH.
  apply RtoC_inj. rewrite RtoC_plus, !rsum_zsum. rewrite Nat2Z.inj_succ. unfold Z.succ. now rewrite zsum_last by lia.
Qed.
Lemma sf_sq n : sf n * sf n = zfact n. Proof. apply sqrt_sqrt, zf_ge0. Qed.
Lemma wsum_top A X P Q : (0 <= P <= A)%Z -> (P <= Q)%Z -> (0 <= X + P)%Z -> wsum A X P Q (- P) = sgnR P * / (zfact P * zfact (A - P) * zfact (Q - P) * zfact (X + P)).
Proof.
  intros HP HQ HX. unfold wsum. rewrite (rsum_single _ _ P) by (try lia; intros k Hk N; apply wt_0; lia).
  unfold wt. rewrite Z.sub_diag. replace (- P + P)%Z with 0%Z by ring. rewrite !invfact_pos by lia. rewrite zfact_0. field. repeat split; apply zfact_neq0.
Qed.
Lemma zf_nat n : zfact (Z.of_nat n) = INR (fact n). Proof. unfold zfact. now rewrite Nat2Z.id. Qed.
Lemma top_sq (A B C a : nat) j1 j2 J : (2 * j1 = Z.of_nat A + Z.of_nat B)%Z -> (2 * j2 = Z.of_nat A + Z.of_nat C)%Z -> (2 * J = Z.of_nat B + Z.of_nat C)%Z -> (a <= A)%nat ->
  cg j1 j2 J (j1 - Z.of_nat a) (J - (j1 - Z.of_nat a)) * cg j1 j2 J (j1 - Z.of_nat a) (J - (j1 - Z.of_nat a)) = hb C a * hb B (A - a) * / hb (B + C + 1) A.
Proof.
  intros H1 H2 H3 Ha. assert (T : tri_ok j1 j2 J) by (unfold tri_ok; lia). rewrite cg_W by exact T.
  assert (P : 0 <= cgA j1 j2 J).
  { unfold cgA. assert (G := zfact_pos). assert (0 <= IZR J) by (apply IZR_le; lia).
    apply Rmult_le_pos; [lra|]. apply Rlt_le, Rdiv_lt_0_compat; [|apply G]. repeat apply Rmult_lt_0_compat; apply G. }
  transitivity ((sqrt (cgA j1 j2 J) * sqrt (cgA j1 j2 J)) * (fprod j1 j2 J (j1 - Z.of_nat a) (J - (j1 - Z.of_nat a)) * fprod j1 j2 J (j1 - Z.of_nat a) (J - (j1 - Z.of_nat a)))
    * (W j1 j2 J (j1 - Z.of_nat a) (J - (j1 - Z.of_nat a)) * W j1 j2 J (j1 - Z.of_nat a) (J - (j1 - Z.of_nat a)))); [ring|].
  rewrite (sqrt_sqrt _ P).
  replace (fprod j1 j2 J (j1 - Z.of_nat a) (J - (j1 - Z.of_nat a)) * fprod j1 j2 J (j1 - Z.of_nat a) (J - (j1 - Z.of_nat a)))
    with (zfact (Z.of_nat (B + C)) * 1 * (zfact (Z.of_nat a) * zfact (Z.of_nat (B + (A - a)))) * (zfact (Z.of_nat (A - a)) * zfact (Z.of_nat (C + a)))).
  2:{ unfold fprod. replace (J - (j1 - Z.of_nat a + (J - (j1 - Z.of_nat a))))%Z with 0%Z by ring.
      replace (J + (j1 - Z.of_nat a + (J - (j1 - Z.of_nat a))))%Z with (Z.of_nat (B + C)) by lia.
      replace (j1 - (j1 - Z.of_nat a))%Z with (Z.of_nat a) by ring. replace (j1 + (j1 - Z.of_nat a))%Z with (Z.of_nat (B + (A - a))) by lia.
      replace (j2 - (J - (j1 - Z.of_nat a)))%Z with (Z.of_nat (A - a)) by lia. replace (j2 + (J - (j1 - Z.of_nat a)))%Z with (Z.of_nat (C + a)) by lia.
      replace 1 with (zfact 0) by apply zfact_0. rewrite <- !sf_sq. ring. }
  replace (W j1 j2 J (j1 - Z.of_nat a) (J - (j1 - Z.of_nat a)))
    with (sgnR (Z.of_nat a) * / (zfact (Z.of_nat a) * zfact (Z.of_nat (A - a)) * zfact (Z.of_nat C) * zfact (Z.of_nat B))).
  2:{ unfold W. replace (J - j1 - (J - (j1 - Z.of_nat a)))%Z with (- Z.of_nat a)%Z by ring. replace (j1 - (j1 - Z.of_nat a))%Z with (Z.of_nat a) by ring.
      rewrite wsum_top by lia. replace (j1 + j2 - J - Z.of_nat a)%Z with (Z.of_nat (A - a)) by lia.
      replace (j2 + (J - (j1 - Z.of_nat a)) - Z.of_nat a)%Z with (Z.of_nat C) by lia.
      replace (J - j2 + (j1 - Z.of_nat a) + Z.of_nat a)%Z with (Z.of_nat B) by lia. reflexivity. }
  assert (S2 := sgnR_sq (Z.of_nat a)). set (s := sgnR _) in *. clearbody s.
  match goal with |- _ * _ * (s * ?w * (s * ?w)) = _ => replace (s * w * (s * w)) with (s * s * (w * w)) by ring end. rewrite S2.
  unfold cgA, hb. replace (J + j1 - j2)%Z with (Z.of_nat B) by lia. replace (J - j1 + j2)%Z with (Z.of_nat C) by lia. replace (j1 + j2 - J)%Z with (Z.of_nat A) by lia.
  replace (j1 + j2 + J + 1)%Z with (Z.of_nat (B + C + 1 + A)) by lia. rewrite !zf_nat.
  replace (2 * IZR J + 1) with (INR (S (B + C))).
  2:{ rewrite S_INR, INR_IZR_INZ. replace (2 * IZR J) with (IZR (2 * J)) by (now rewrite mult_IZR). rewrite H3. rewrite Nat2Z.inj_add. reflexivity. }
  replace (B + C + 1)%nat with (S (B + C)) by lia. rewrite (factS (B + C)).
  assert (N : INR (S (B + C)) <> 0) by (apply not_0_INR; lia). field. repeat split; try apply fact_ne; assumption.
Qed.
Lemma hb_pos B a : 0 < hb B a.
Proof. unfold hb. apply Rdiv_lt_0_compat; [apply INR_fact_lt_0|]. apply Rmult_lt_0_compat; apply INR_fact_lt_0. Qed.
Lemma nsumR_scal n c f : nsumR n (fun k => f k * c) = nsumR n f * c.
Proof. induction n; cbn; [ring|]. rewrite IHn. ring. Qed.
Lemma ip_top j1 j2 J : tri_ok j1 j2 J -> ip j1 j2 J J J = 1.
Proof.
  intros (t1 & t2 & t3). set (A := Z.to_nat (j1 + j2 - J)). set (B := Z.to_nat (J + j1 - j2)). set (C := Z.to_nat (J - j1 + j2)).
  unfold ip. rewrite (rsum_refl j1). replace (j1 - (j1 + 1) + 1)%Z with 0%Z by ring.
  rewrite (rsum_supp 0 (j1 - - j1 + 1) 0 (Z.of_nat (S A))).
  2:{ intros k N. destruct (Z_lt_dec j1 (Z.abs (j1 - k))); [exfalso; apply N; rewrite cg_zero by lia; ring|].
      destruct (Z_lt_dec j2 (Z.abs (J - (j1 - k)))); [exfalso; apply N; rewrite cg_zero by lia; ring|]. lia. }
  rewrite rsum_nsumR. rewrite (nsumR_ext _ _ (fun a => hb C a * hb B (A - a) * / hb (B + C + 1) A)).
  2:{ intros a Ha. apply top_sq; lia. }
  rewrite nsumR_scal, conv. apply Rinv_r. apply Rgt_not_eq, hb_pos.
Qed.
Lemma cg_orthonormal j1 j2 J J' M : tri_ok j1 j2 J -> tri_ok j1 j2 J' -> (Z.abs M <= J)%Z ->
  ip j1 j2 J J' M = if (J =? J')%Z then 1 else 0.
Proof.
  intros T T' HM. destruct (Z.eqb_spec J J') as [<-|N]; [rewrite ip_norm_M, ip_top; auto|].
  destruct (Z_lt_dec J J'); [now apply ip_lt|]. rewrite ip_comm. apply ip_lt; auto. lia.
Qed.

(* ---- a square matrix with orthonormal rows has orthonormal columns ---- *)
Lemma nsumR_ge0 n f : (forall k, (k < n)%nat -> 0 <= f k) -> 0 <= nsumR n f.
Proof. induction n as [|n IH]; cbn; intros H; [lra|]. specialize (IH (fun k Hk => H k (Nat.lt_lt_succ_r _ _ Hk))). specialize (H n (Nat.lt_succ_diag_r n)). lra. Qed.
Lemma nsumR_zero n f : (forall k, (k < n)%nat -> 0 <= f k) -> nsumR n f = 0 -> forall k, (k < n)%nat -> f k = 0.
Proof.
  induction n as [|n IH]; cbn; intros H E k Hk; [lia|].
  assert (G := nsumR_ge0 n f (fun k Hk => H k (Nat.lt_lt_succ_r _ _ Hk))). assert (G2 := H n (Nat.lt_succ_diag_r n)).
  destruct (Nat.eq_dec k n) as [->|N]; [lra|]. apply IH; [intros; apply H; lia|lra|lia].
Qed.
Lemma rsum_n a b f : (a <= b)%Z -> rsum a b f = nsumR (Z.to_nat (b - a)) (fun k => f (Z.of_nat k + a)%Z).
Proof.
  intros H. rewrite (rsum_shift (- a)). replace (a + - a)%Z with 0%Z by ring. replace (b + - a)%Z with (Z.of_nat (Z.to_nat (b - a))) by lia.
  rewrite rsum_nsumR. apply nsumR_ext. intros k _. cbv beta. f_equal. lia.
Qed.
Lemma rsum_ge0 a b f : (forall k, (a <= k < b)%Z -> 0 <= f k) -> 0 <= rsum a b f.
Proof.
  intros H. destruct (Z_le_dec b a) as [h|h]; [rewrite rsum_empty by lia; lra|]. rewrite rsum_n by lia.
  apply nsumR_ge0. intros k Hk. apply H. lia.
Qed.
Lemma rsum_zero a b f : (forall k, (a <= k < b)%Z -> 0 <= f k) -> rsum a b f = 0 -> forall k, (a <= k < b)%Z -> f k = 0.
Proof.
  intros H E k Hk. assert (Hab : (a <= b)%Z) by lia. rewrite rsum_n in E by exact Hab.
  assert (G : (fun q => f (Z.of_nat q + a)%Z) (Z.to_nat (k - a)) = 0).
  { apply (nsumR_zero (Z.to_nat (b - a)) (fun q => f (Z.of_nat q + a)%Z)); [|exact E|lia]. intros q Hq. apply H. lia. }
  cbv beta in G. replace (Z.of_nat (Z.to_nat (k - a)) + a)%Z with k in G by lia. exact G.
Qed.
Lemma rsum_const a b c : (a <= b)%Z -> rsum a b (fun _ => c) = IZR (b - a) * c.
Proof.
  intros H. rewrite rsum_n by lia. replace (IZR (b - a)) with (INR (Z.to_nat (b - a))) by (rewrite INR_IZR_INZ; f_equal; lia).
  induction (Z.to_nat (b - a)) as [|n IH]; cbn [nsumR]; [cbn; lra|]. rewrite S_INR, IH. lra.
Qed.
Lemma rsum_scal_l a b c f : rsum a b (fun k => c * f k) = c * rsum a b f.
Proof. rewrite (Rmult_comm c), <- rsum_scal_r. apply rsum_ext. intros; ring. Qed.
Definition dl (i j : Z) : R := if (i =? j)%Z then 1 else 0.
Lemma rsum_dl a b i f : (a <= i < b)%Z -> rsum a b (fun j => dl i j * f j) = f i.
Proof.
  intros H. rewrite (rsum_single a b i); [unfold dl; rewrite Z.eqb_refl; ring|auto|].
  intros k _ N. unfold dl. destruct (Z.eqb_spec i k); [congruence|ring].
Qed.
Lemma square_orth a b c d (U : Z -> Z -> R) : (a <= b)%Z -> (b - a = d - c)%Z ->
  (forall i i', (c <= i < d)%Z -> (c <= i' < d)%Z -> rsum a b (fun m => U i m * U i' m) = dl i i') ->
  forall m m', (a <= m < b)%Z -> (a <= m' < b)%Z -> rsum c d (fun i => U i m * U i m') = dl m m'.
Proof.
  intros Hab Hn H. set (P := fun m m' => rsum c d (fun i => U i m * U i m')).
  assert (E : rsum a b (fun m => rsum a b (fun m' => (dl m m' - P m m') * (dl m m' - P m m'))) = 0).
  { assert (E1 : rsum a b (fun m => rsum a b (fun m' => dl m m' * dl m m')) = IZR (b - a)).
    { rewrite (rsum_ext a b _ (fun _ => 1)); [rewrite rsum_const by lia; ring|]. intros m Hm. rewrite rsum_dl by lia. unfold dl. now rewrite Z.eqb_refl. }
    assert (E2 : rsum a b (fun m => rsum a b (fun m' => dl m m' * P m m')) = IZR (b - a)).
    { rewrite (rsum_ext a b _ (fun m => P m m)); [|intros m Hm; now rewrite rsum_dl by lia].
      unfold P. rewrite (rsum_swap a b c d (fun m i => U i m * U i m)).
      rewrite (rsum_ext c d _ (fun _ => 1)); [rewrite rsum_const by lia; rewrite Hn; ring|]. intros i Hi. rewrite H by lia. unfold dl. now rewrite Z.eqb_refl. }
    assert (E3 : rsum a b (fun m => rsum a b (fun m' => P m m' * P m m')) = IZR (b - a)).
    { rewrite (rsum_ext a b _ (fun m => rsum c d (fun i => rsum c d (fun i' => U i m * U i' m * dl i i')))).
      2:{ intros m Hm. rewrite (rsum_ext a b _ (fun m' => rsum c d (fun i => rsum c d (fun i' => U i m * U i' m * (U i m' * U i' m'))))).
          2:{ intros m' Hm'. unfold P at 1. rewrite <- rsum_scal_r. apply rsum_ext. intros i Hi. unfold P. rewrite <- rsum_scal_l. apply rsum_ext. intros; ring. }
          rewrite (rsum_swap a b c d). apply rsum_ext. intros i Hi. rewrite (rsum_swap a b c d). apply rsum_ext. intros i' Hi'.
          rewrite rsum_scal_l. now rewrite H. }
      rewrite (rsum_swap a b c d). rewrite (rsum_ext c d _ (fun _ => 1)); [rewrite rsum_const by lia; rewrite Hn; ring|]. intros i Hi.
      rewrite (rsum_swap a b c d). rewrite (rsum_ext c d _ (fun i' => dl i i' * dl i i')).
      2:{ intros i' Hi'. rewrite rsum_scal_r. now rewrite H. }
      rewrite rsum_dl by lia. unfold dl. now rewrite Z.eqb_refl. }
    rewrite (rsum_ext a b _ (fun m => rsum a b (fun m' => dl m m' * dl m m') - 2 * rsum a b (fun m' => dl m m' * P m m') + rsum a b (fun m' => P m m' * P m m'))).
    2:{ intros m Hm. rewrite <- rsum_scal_l, <- rsum_minus, <- rsum_plus. apply rsum_ext. intros; ring. }
    rewrite rsum_plus, rsum_minus, rsum_scal_l, E1, E2, E3. ring. }
  intros m m' Hm Hm'.
  assert (G := rsum_zero _ _ _ (fun q Hq => rsum_ge0 _ _ _ (fun r Hr => Rle_0_sqr (dl q r - P q r))) E m Hm). cbv beta in G.
  assert (G2 := rsum_zero _ _ _ (fun r Hr => Rle_0_sqr (dl m r - P m r)) G m' Hm'). cbv beta in G2.
  apply Rsqr_0_uniq in G2. change (P m m' = dl m m'). lra.
Qed.
Lemma rsum_low a c b f : (a <= c <= b)%Z -> (forall k, (a <= k < c)%Z -> f k = 0) -> rsum a b f = rsum c b f.
Proof.
  intros H Z0. apply RtoC_inj. rewrite !rsum_zsum. symmetry. apply zsum_supp; try lia. intros k Hk N. rewrite Z0 by lia. reflexivity.
Qed.
Lemma cg_complete j1 j2 M m m' : (0 <= j1)%Z -> (0 <= j2)%Z -> (Z.abs m <= j1)%Z -> (Z.abs m' <= j1)%Z -> (Z.abs (M - m) <= j2)%Z -> (Z.abs (M - m') <= j2)%Z ->
  rsum (Z.abs (j1 - j2)) (j1 + j2 + 1) (fun J => cg j1 j2 J m (M - m) * cg j1 j2 J m' (M - m')) = dl m m'.
Proof.
  intros H1 H2 Hm Hm' Hn Hn'.
  rewrite (rsum_low _ (Z.max (Z.abs (j1 - j2)) (Z.abs M))) by (try (intros; rewrite cg_zero by lia; ring); lia).
  apply (square_orth (Z.max (- j1) (M - j2)) (Z.min j1 (M + j2) + 1) _ _ (fun J q => cg j1 j2 J q (M - q))); try lia.
  intros J J' HJ HJ'. unfold dl. rewrite <- (cg_orthonormal j1 j2 J J' M) by (unfold tri_ok; lia). unfold ip.
  symmetry. apply rsum_supp. intros k Hk. destruct (Z_le_dec (Z.abs k) j1) as [h1|h1]; [|exfalso; apply Hk; rewrite cg_zero by lia; ring].
  destruct (Z_le_dec (Z.abs (M - k)) j2) as [h2|h2]; [lia|exfalso; apply Hk; rewrite cg_zero by lia; ring].
Qed.
