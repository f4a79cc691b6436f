(* C39, the crossed cylinders: qlmACH.cylhole2 and qlmACH.cylhole against the volume integral *)
From Coq Require Import Reals Lra Lia ZArith.
From Coquelicot Require Import Coquelicot.
From Verif Require Import AchProofs AchProofs3 EllSpec Crossed CrossedM Hyper Res QlmACH Props_Qlm Props_Qlm2 Props_ACH.
From Verif Require Import Cplx.
From Verif Require Import Elliptic.
Open Scope R_scope.

Lemma cylhole2_body ellipe ellipk L rho r Rad : (0 <= L)%Z -> 0 < r <= Rad ->
  elliptic_integrals ellipe ellipk ->
  density_moments every (ach_finish L (ach_cylhole2_tab ellipe ellipk rho r Rad)) rho (crossed_core r Rad).
Proof.
  intros HL Hr HE. assert (Hk := km_range _ _ Hr). apply core_body; [assumption|assumption|reflexivity|].
  unfold ach_cylhole2_tab. cbv zeta. set (k := r / Rad) in *.
  assert (Er : r = k * Rad) by (unfold k; field; lra).
  assert (Hk0 : 0 < k) by (unfold k; apply Rdiv_lt_0_compat; lra).
  assert (Hk1 : k <= 1) by nra.
  set (Ek := if req k 1 then 1 else ellipe (k ^ 2)). set (Kk := if req k 1 then 0 else ellipk (k ^ 2)).
  assert (HJ : forall i, (i <= 2)%nat -> J (km r Rad) i = 2 * jA (k ^ 2) Ek Kk i).
  { intros i Hi. unfold km. fold k. unfold Ek, Kk. destruct (Req_dec k 1) as [->|N].
    - rewrite req_t by reflexivity. replace (1 ^ 2) with 1 by ring. now apply J_1.
    - rewrite req_f by assumption. assert (0 < k ^ 2 < 1) by (split; [apply pow_lt; lra|nra]). destruct (HE (k ^ 2)); [assumption|]. now apply J_ell. }
  clearbody Ek Kk. intros l mm Hm Hl _. revert l mm Hm Hl.
  assert (J0 := HJ 0%nat ltac:(lia)). assert (J1 := HJ 1%nat ltac:(lia)). assert (J2 := HJ 2%nat ltac:(lia)). unfold jA in J0, J1, J2. clear HJ HE.
  assert (HR : Rad <> 0) by lra. assert (Hk' : k <> 0) by lra.
  assert (Em : km r Rad = k ^ 2) by reflexivity.
  apply lm_cases.
  all: ach_open; unfold mu_core, even2; zc; cbv iota; xval Hr; rewrite ?J0, ?J1, ?J2, ?Em; rw_zf; rw_pw; apply C_eq; cbn [Cmult Cplus Cminus Copp Cdiv Cinv Ci RtoC fst snd Re Im]; sqsplit; try rewrite Er.
  all: try (generalize dependent (X r Rad); intros XX).
  all: clear - HR Hk'; try (field [s2s s3s s5s s7s s11s]; repeat split; ne0).
Qed.
Theorem C39_cylhole2 : forall ellipe ellipk L rho r Rad, elliptic_integrals ellipe ellipk -> (0 <= L)%Z -> 0 < r <= Rad ->
  computes every L rho (crossed_core r Rad) (ach_cylhole2 ellipe ellipk L rho r Rad).
Proof.
  intros Fe Fk L rho r Rad HE HL Hr. eexists. split; [unfold ach_cylhole2; guard_f; reflexivity|]. split; [apply deg_ach|]. now apply cylhole2_body.
Qed.
Lemma hyp_vals hyp2f1 r Rad : gauss_series hyp2f1 -> 0 < r <= Rad -> let m := km r Rad in
  J m 0 = PI / 2 * hyp2f1 (- (1 / 2)) (1 / 2) 2 m /\ J m 1 = PI / 8 * hyp2f1 (- (1 / 2)) (3 / 2) 3 m /\ J m 2 = PI / 16 * hyp2f1 (- (1 / 2)) (5 / 2) 4 m.
Proof.
  intros HF Hr m. assert (Hm := km_range _ _ Hr : 0 < m <= 1). clearbody m. destruct (HF m Hm) as (F2 & F3 & F4). assert (Hm' : 0 <= m <= 1) by lra.
  split; [|split].
  - rewrite <- Wa_0. apply (J_hyp m 0 _ Hm'). replace (INR 0 + 1 / 2) with (1 / 2) by (cbn [INR]; lra). replace (INR 0 + 2) with 2 by (cbn [INR]; lra). exact F2.
  - replace (PI / 8) with (Wa 1) by (rewrite Wa_S, Wa_0; cbn [INR]; field). apply (J_hyp m 1 _ Hm'). replace (INR 1 + 1 / 2) with (3 / 2) by (cbn [INR]; lra). replace (INR 1 + 2) with 3 by (cbn [INR]; lra). exact F3.
  - replace (PI / 16) with (Wa 2) by (rewrite !Wa_S, Wa_0; cbn [INR]; field). apply (J_hyp m 2 _ Hm'). replace (INR 2 + 1 / 2) with (5 / 2) by (cbn [INR]; lra). replace (INR 2 + 2) with 4 by (cbn [INR]; lra). exact F4.
Qed.
Lemma PI_sq : PI = sqrt PI * sqrt PI. Proof. rewrite sqrt_sqrt; [reflexivity|]. assert (H := PI_RGT_0). lra. Qed.
Lemma cylhole_body hyp2f1 L rho r Rad : (0 <= L)%Z -> 0 < r <= Rad -> gauss_series hyp2f1 ->
  density_moments (fun l m => but 2 2 l m && but 4 4 l m)%bool (ach_finish L (ach_cylhole_tab hyp2f1 rho r Rad)) rho (crossed_core r Rad).
Proof.
  intros HL Hr HF. destruct (hyp_vals _ _ _ HF Hr) as (J0 & J1 & J2). apply core_body; [assumption|assumption|reflexivity|].
  assert (HR : Rad <> 0) by lra. assert (Hr0 : r <> 0) by lra.
    assert (Em : km r Rad = r ^ 2 / Rad ^ 2) by (unfold km; field; lra).
  apply (lm_cases (fun l m => (but 2 2 l m && but 4 4 l m)%bool = true -> tabf (ach_cylhole_tab hyp2f1 rho r Rad) l m = (RtoC rho * (RtoC (nrm l m) * mono_int (mu_core r Rad) l m))%C)).
  all: intros Ho; try discriminate Ho; clear Ho; unfold ach_cylhole_tab; change ((r / Rad) ^ 2) with (km r Rad); ach_open; set (F2 := hyp2f1 (- (1 / 2)) (1 / 2) 2 (km r Rad)) in *; set (F3 := hyp2f1 (- (1 / 2)) (3 / 2) 3 (km r Rad)) in *; set (F4 := hyp2f1 (- (1 / 2)) (5 / 2) 4 (km r Rad)) in *; clearbody F2 F3 F4; unfold mu_core, even2; zc; cbv iota; xval Hr; rewrite ?J0, ?J1, ?J2, ?Em; rw_zf; rw_pw; apply C_eq; cbn [Cmult Cplus Cminus Copp Cdiv Cinv Ci RtoC fst snd Re Im]; sqsplit.
  all: try (generalize dependent (X r Rad); intros XX); assert (HP := PI_sq); assert (HsP := sPn); revert HP HsP; generalize (sqrt PI); intros sP HP HsP; rewrite ?HP.
  all: clear - HR Hr0 HsP; try (field [s2s s3s s5s s7s s11s]; repeat split; ne0).
Qed.
Theorem C39_cylhole : forall hyp2f1 L rho r Rad, gauss_series hyp2f1 -> (0 <= L)%Z -> 0 < r <= Rad ->
  computes (fun l m => but 2 2 l m && but 4 4 l m)%bool L rho (crossed_core r Rad) (ach_cylhole hyp2f1 L rho r Rad).
Proof.
  intros F L rho r Rad HF HL Hr. eexists. split; [unfold ach_cylhole; guard_f; reflexivity|]. split; [apply deg_ach|]. now apply cylhole_body.
Qed.
(* the two entries left out are always wrong: they come out positive where the integral is negative or zero *)
Theorem C39_cylhole_22_44 : forall hyp2f1 L rho r Rad q, gauss_series hyp2f1 -> (4 <= L)%Z -> 0 < rho -> 0 < r <= Rad ->
  ach_cylhole hyp2f1 L rho r Rad = Ok q ->
  exists I22 I44 : R, crossed_core r Rad (fun x y z => rsolid 2 2 (x, y, z)) (RtoC I22) /\ crossed_core r Rad (fun x y z => rsolid 4 4 (x, y, z)) (RtoC I44) /\
    I22 <= 0 /\ I44 <= 0 /\ 0 < Re (mom q 2 2) /\ 0 < Re (mom q 4 4).
Proof.
  intros F L rho r Rad q HF HL Hrho Hr E. unfold ach_cylhole in E. destruct (rle r 0 || _)%bool; [discriminate|]. apply Ok_inj in E. subst q.
  assert (Hm := m01 _ _ Hr). destruct (hyp_vals _ _ _ HF Hr) as (J0 & _ & _). assert (P0 := J_pos (km r Rad) 0 Hm). rewrite J0 in P0.
  assert (RB := regular_core r Rad). assert (CM := fun a b c Ha Hb Hc => core_mono r Rad a b c Ha Hb Hc).
  assert (S22 := mono_solid _ _ 2 2 RB CM ltac:(lia)). assert (S44 := mono_solid _ _ 4 4 RB CM ltac:(lia)).
  assert (N22 := nrm_22). assert (N44 := nrm_44).
  assert (N22p : 0 < nrm 2 2) by (apply nrm_pos; lia). assert (N44p : 0 < nrm 4 4) by (apply nrm_pos; lia).
  assert (E22 : mono_int (mu_core r Rad) 2 2 = RtoC (r ^ 4 * Rad * (4 * J (km r Rad) 1 - J (km r Rad) 0) / 6)).
  { rw_mi. unfold mu_core, even2; zc; cbv iota; xval Hr; rw_zf; rw_pw; apply C_eq; cbn [Cmult Cplus Cminus Copp Cdiv Cinv Ci RtoC fst snd Re Im]; field. }
  assert (E44 : exists k, 0 < k /\ mono_int (mu_core r Rad) 4 4 = RtoC (k * (r ^ 6 * Rad * (16 * J (km r Rad) 2 - 12 * J (km r Rad) 1 + J (km r Rad) 0)))).
  { exists (1 / 480). split; [lra|]. rw_mi. unfold mu_core, even2; zc; cbv iota; xval Hr; rw_zf; rw_pw; apply C_eq; cbn [Cmult Cplus Cminus Copp Cdiv Cinv Ci RtoC fst snd Re Im]; field. }
  destruct E44 as (k & Hk & E44). rewrite E22 in S22. rewrite E44 in S44.
  assert (P4 : 0 < r ^ 4 * Rad) by (apply Rmult_lt_0_compat; [apply pow_lt; lra|lra]). assert (P6 : 0 < r ^ 6 * Rad) by (apply Rmult_lt_0_compat; [apply pow_lt; lra|lra]).
  exists (nrm 2 2 * (r ^ 4 * Rad * (4 * J (km r Rad) 1 - J (km r Rad) 0) / 6)), (nrm 4 4 * (k * (r ^ 6 * Rad * (16 * J (km r Rad) 2 - 12 * J (km r Rad) 1 + J (km r Rad) 0)))).
  assert (A22 := reg_scal _ RB (RtoC (nrm 2 2)) _ _ S22). assert (A44 := reg_scal _ RB (RtoC (nrm 4 4)) _ _ S44). rewrite <- RtoC_mult in A22, A44.
  split; [exact A22|]. split; [exact A44|].
  assert (Q22 := J_22 _ Hm). assert (Q44 := J_44 _ Hm).
  split; [|split].
  - set (j := 4 * _ - _) in *. clearbody j. set (n := nrm 2 2) in *. set (p := r ^ 4 * Rad) in *. clearbody n p. assert (p * j <= 0) by (clear - P4 Q22; nra). clear - N22p H. nra.
  - set (j := 16 * _ - _ + _) in *. clearbody j. set (n := nrm 4 4) in *. set (p := r ^ 6 * Rad) in *. clearbody n p. assert (p * j <= 0) by (clear - P6 Q44; nra). assert (k * (p * j) <= 0) by (clear - Hk H; nra). clear - N44p H0. nra.
  - rewrite !ach_entry by (reflexivity || lia). cbn [Z.eqb]. unfold ach_cylhole_tab. change ((r / Rad) ^ 2) with (km r Rad). tab_read. set (F2 := F (- (1 / 2)) (1 / 2) 2 (km r Rad)) in *.
    assert (PF : 0 < F2). { clear - P0. clearbody F2. assert (H := PI_RGT_0). destruct (Rle_lt_dec F2 0); [|assumption]. nra. }
    assert (Pfac : 0 < rho * sqrt PI * r * Rad) by (repeat apply Rmult_lt_0_compat; try lra; apply sqrt_lt_R0, PI_RGT_0).
    cbn [RtoC Re fst]. assert (s1 : 0 < sqrt (15 / 2)) by (apply sqrt_lt_R0; lra). assert (s2 : 0 < sqrt (35 / 2)) by (apply sqrt_lt_R0; lra).
    set (fac := rho * sqrt PI * r * Rad) in *. clearbody fac. split; [|unfold Rdiv; apply Rmult_lt_0_compat; [|lra]]; repeat apply Rmult_lt_0_compat; lra.
Qed.
(* so no valid hypergeometric function makes cylhole right *)
Theorem C39_cylhole_never_right : forall hyp2f1 L rho r Rad, gauss_series hyp2f1 -> (4 <= L)%Z -> 0 < rho -> 0 < r <= Rad ->
  ~ computes (fun l m => negb (but 2 2 l m)) L rho (crossed_core r Rad) (ach_cylhole hyp2f1 L rho r Rad) /\
  ~ computes (fun l m => negb (but 4 4 l m)) L rho (crossed_core r Rad) (ach_cylhole hyp2f1 L rho r Rad).
Proof.
  intros F L rho r Rad HF HL Hrho Hr. assert (RB := regular_core r Rad).
  assert (B1 : crossed_core r Rad (fun _ _ _ => RtoC 1) (RtoC (mu_core r Rad 0 0 0))) by (apply mono_000; [exact RB|intros; now apply core_mono]). assert (V1 := core_vol_pos r Rad Hr).
  split; intros (q & E & Dq & V & HV & BV & HH & _ & _); destruct (C39_cylhole_22_44 F L rho r Rad q HF HL Hrho Hr E) as (I22 & I44 & A22 & A44 & L22 & L44 & M22 & M44);
  assert (EV := reg_unique _ RB _ _ _ BV B1); apply RtoC_inj in EV; subst V; rewrite Rabs_pos_eq in HH by lra; replace (mu_core r Rad 0 0 0 / mu_core r Rad 0 0 0) with 1 in HH by (field; lra); rewrite Rmult_1_r in HH.
  - destruct (HH 2%Z 2%Z ltac:(lia) ltac:(lia) ltac:(lia) eq_refl) as (I & HI & EI). rewrite (reg_unique _ RB _ _ _ HI A22) in EI. rewrite EI in M22. cbn [Cmult RtoC Re fst snd] in M22. nra.
  - destruct (HH 4%Z 4%Z ltac:(lia) ltac:(lia) ltac:(lia) eq_refl) as (I & HI & EI). rewrite (reg_unique _ RB _ _ _ HI A44) in EI. rewrite EI in M44. cbn [Cmult RtoC Re fst snd] in M44. nra.
Qed.
(* the two closed forms agree wherever both are right *)
Theorem C39_cylhole_agree : forall ellipe ellipk hyp2f1 L rho r Rad q q', elliptic_integrals ellipe ellipk -> gauss_series hyp2f1 -> (0 <= L)%Z -> 0 < r <= Rad ->
  ach_cylhole2 ellipe ellipk L rho r Rad = Ok q -> ach_cylhole hyp2f1 L rho r Rad = Ok q' ->
  forall l m, (0 <= l <= L)%Z -> (Z.abs m <= l)%Z -> (but 2 2 l (Z.abs m) && but 4 4 l (Z.abs m))%bool = true -> mom q' l m = mom q l m.
Proof.
  intros Fe Fk F L rho r Rad q q' HE HF HL Hr E E' l m Hl Hm Ho. assert (RB := regular_core r Rad).
  destruct (C39_cylhole2 Fe Fk L rho r Rad HE HL Hr) as (q0 & E0 & D0 & V & HV & BV & HH & HZ & _). rewrite E in E0. apply Ok_inj in E0. subst q0.
  destruct (C39_cylhole F L rho r Rad HF HL Hr) as (q0 & E0 & D0' & V' & HV' & BV' & HH' & HZ' & _). rewrite E' in E0. apply Ok_inj in E0. subst q0.
  assert (EV := reg_unique _ RB _ _ _ BV BV'). apply RtoC_inj in EV. subst V'.
  destruct (Z_le_dec l 5) as [H5|H5].
  - destruct (HH l m) as (I & HI & ->); [lia|lia|lia|reflexivity|]. destruct (HH' l m) as (I' & HI' & ->); [lia|lia|lia|exact Ho|]. now rewrite (reg_unique _ RB _ _ _ HI HI').
  - rewrite HZ, HZ' by lia. reflexivity.
Qed.
(* such functions exist *)
Theorem C39_special_functions : (exists ellipe ellipk, elliptic_integrals ellipe ellipk) /\ (exists hyp2f1, gauss_series hyp2f1).
Proof.
  split.
  - exists (fun m => RInt (fun u => sqrt (1 - m * sin u ^ 2)) 0 (PI / 2)), (fun m => RInt (fun u => / sqrt (1 - m * sin u ^ 2)) 0 (PI / 2)). intros m Hm. split.
    + apply (is_int (D m)). intros. apply D_cont.
    + apply (is_int (fun u => / D m u)). intros u. assert (P := D_pos m u ltac:(lra)). apply (continuous_ext (fun u => sin u ^ (2 * 0) / D m u)); [intros t; change (1 / D m t = / D m t); apply Rmult_1_l|]. apply (A_cont m 0). lra.
  - exists (fun _ b _ x => let i := (if Req_EM_T b (1 / 2) then 0 else if Req_EM_T b (3 / 2) then 1 else 2)%nat in J x i / Wa i).
    intros x Hx. assert (Hx' : 0 <= x <= 1) by lra. cbv zeta. split; [|split].
    + destruct (Req_EM_T (1 / 2) (1 / 2)); [|lra]. assert (H := J_hyp_ex x 0 Hx'). replace (INR 0 + 1 / 2) with (1 / 2) in H by (cbn [INR]; lra). replace (INR 0 + 2) with 2 in H by (cbn [INR]; lra). exact H.
    + destruct (Req_EM_T (3 / 2) (1 / 2)); [lra|]. destruct (Req_EM_T (3 / 2) (3 / 2)); [|lra]. assert (H := J_hyp_ex x 1 Hx'). replace (INR 1 + 1 / 2) with (3 / 2) in H by (cbn [INR]; lra). replace (INR 1 + 2) with 3 in H by (cbn [INR]; lra). exact H.
    + destruct (Req_EM_T (5 / 2) (1 / 2)); [lra|]. destruct (Req_EM_T (5 / 2) (3 / 2)); [lra|]. assert (H := J_hyp_ex x 2 Hx'). replace (INR 2 + 1 / 2) with (5 / 2) in H by (cbn [INR]; lra). replace (INR 2 + 2) with 4 in H by (cbn [INR]; lra). exact H.
Qed.
(* equal radii: the Steinmetz solid; its volume is 16 r^3 / 3 *)
Example C39_steinmetz_volume : forall ellipe ellipk rho r q, elliptic_integrals ellipe ellipk -> 0 < r -> ach_cylhole2 ellipe ellipk 5 rho r r = Ok q ->
  mom q 0 0 = RtoC (16 / 3 * r ^ 3 * rho / sqrt (4 * PI)).
Proof.
  intros Fe Fk rho r q HE Hr E. unfold ach_cylhole2 in E. destruct (rle r 0 || _)%bool; [discriminate|]. apply Ok_inj in E. subst q.
  rewrite ach_entry by (reflexivity || lia). cbn [Z.eqb]. unfold ach_cylhole2_tab. replace (r / r) with 1 by (field; lra). tab_read. rewrite !req_t by reflexivity. cbn [RtoC Re fst]. f_equal.
  rewrite sqrt_mult by (assert (H := PI_RGT_0); lra). replace (sqrt 4) with 2 by (replace 4 with (2 ^ 2) by ring; rewrite sqrt_pow2; lra). field. apply sPn.
Qed.
Example C39_cylhole_case : exists ellipe ellipk hyp2f1 q q', elliptic_integrals ellipe ellipk /\ gauss_series hyp2f1 /\
  ach_cylhole2 ellipe ellipk 5 3 1 2 = Ok q /\ ach_cylhole hyp2f1 5 3 1 2 = Ok q' /\ density_moments every q 3 (crossed_core 1 2) /\ mom q' 4 0 = mom q 4 0 /\ mom q' 4 4 <> mom q 4 4.
Proof.
  destruct C39_special_functions as [(Fe & Fk & HE) (F & HF)]. destruct (C39_cylhole2 Fe Fk 5 3 1 2 HE ltac:(lia) ltac:(lra)) as (q & E & Dq & M).
  destruct (C39_cylhole F 5 3 1 2 HF ltac:(lia) ltac:(lra)) as (q' & E' & Dq' & M').
  exists Fe, Fk, F, q, q'. split; [exact HE|]. split; [exact HF|]. split; [exact E|]. split; [exact E'|]. split; [exact M|]. split.
  - apply (C39_cylhole_agree Fe Fk F 5 3 1 2 q q' HE HF ltac:(lia) ltac:(lra) E E'); (lia || reflexivity).
  - intros EE. destruct (C39_cylhole_22_44 F 5 3 1 2 q' HF ltac:(lia) ltac:(lra) ltac:(lra) E') as (_ & I44 & _ & A44 & _ & L44 & _ & M44).
    assert (RB := regular_core 1 2). assert (V1 := core_vol_pos 1 2 ltac:(lra)).
    assert (B1 : crossed_core 1 2 (fun _ _ _ => RtoC 1) (RtoC (mu_core 1 2 0 0 0))) by (apply mono_000; [exact RB|intros; now apply core_mono]).
    destruct M as (V & HV & BV & HH & _). assert (EV := reg_unique _ RB _ _ _ BV B1). apply RtoC_inj in EV. subst V.
    destruct (HH 4%Z 4%Z) as (I & HI & EI); [rewrite Dq; lia|lia|lia|reflexivity|]. rewrite (reg_unique _ RB _ _ _ HI A44) in EI. rewrite EE, EI in M44.
    rewrite Rabs_pos_eq in M44 by lra. replace (mu_core 1 2 0 0 0 / mu_core 1 2 0 0 0) with 1 in M44 by (field; lra). cbn [Cmult RtoC Re fst snd] in M44. lra.
Qed.
Print Assumptions C39_cylhole2.
Print Assumptions C39_cylhole_never_right.
Print Assumptions C39_special_functions.
