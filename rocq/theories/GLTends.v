(* The arrays of newt/gShapeGL.py that fill a region with Gauss-Legendre points, and integrals over the region. *)
From Coq Require Import Reals Lra Lia List.
From Coquelicot Require Import Coquelicot.
From Verif Require Import Glib Res LipInt BodyInt NewtonSpec Newton NumSpec BuiltSpec PointSpec GLSpec GLPoints GShapeGL GlibShapes GlibShapesProofs GLProofs Gauss Refine2 Refine4 Refine5 Polar Refine7 GLEven GLLimit GLCount.
From Verif Require Import Cplx.
From Verif Require Import Refine.
Import ListNotations.
Open Scope R_scope.

(* pts was made from rules of more than n points mapped onto the box bx, of which those in S were kept *)
Definition gmade (mass : R) (S : region) (bx : span) (n : nat) (pts : list pt) : Prop :=
  exists nx ny nz rx ry rz c (s : vec -> bool) fx fy fz, (n < nx)%nat /\ (n < ny)%nat /\ (n < nz)%nat /\ gauss_rule nx rx /\ gauss_rule ny ry /\ gauss_rule nz rz /\ c <> 0 /\
    (forall v, in_span bx v -> (s v = true <-> S v)) /\
    (forall t, fx t = (s_x0 bx + s_x1 bx) / 2 + t * ((s_x1 bx - s_x0 bx) / 2)) /\ (forall t, fy t = (s_y0 bx + s_y1 bx) / 2 + t * ((s_y1 bx - s_y0 bx) / 2)) /\ (forall t, fz t = (s_z0 bx + s_z1 bx) / 2 + t * ((s_z1 bx - s_z0 bx) / 2)) /\
    correct_mass mass (filter (fun p => s (pp p)) (gl_grid c rx ry rz fx fy fz)) = Ok pts.
Lemma gsum_in bx nx ny nz rx ry rz g h : s_x0 bx < s_x1 bx -> s_y0 bx < s_y1 bx -> s_z0 bx < s_z1 bx -> gauss_rule nx rx -> gauss_rule ny ry -> gauss_rule nz rz -> (forall v, in_span bx v -> g v = h v) -> gsum bx rx ry rz g = gsum bx rx ry rz h.
Proof.
  intros X Y Z G1 G2 G3 E. apply (gq_ext _ _ nz); [assumption|assumption|]. intros z Hz. apply (gq_ext _ _ ny); [assumption|assumption|]. intros y Hy. apply (gq_ext _ _ nx); [assumption|assumption|]. intros x Hx. apply E. unfold in_span. tauto.
Qed.
Lemma lsr_app {A} (f : A -> R) l1 l2 : lsr f (l1 ++ l2) = lsr f l1 + lsr f l2.
Proof. unfold lsr. induction l1 as [|a l IH]; cbn; [ring|rewrite IH; ring]. Qed.
Lemma lsr_flat {A B} (f : B -> R) (g : A -> list B) l : lsr f (flat_map g l) = lsr (fun a => lsr f (g a)) l.
Proof. induction l as [|a l IH]; [reflexivity|]. cbn [flat_map]. rewrite lsr_app, IH. reflexivity. Qed.
Lemma lsr_mapp {A B} (f : B -> R) (g : A -> B) l : lsr f (map g l) = lsr (fun a => f (g a)) l.
Proof. induction l as [|a l IH]; [reflexivity|]. cbn [map]. unfold lsr in *. cbn. now rewrite IH. Qed.
Lemma lsr_quad (r : rule) (f : R -> R) : lsr (fun p : R * R => snd p * f (fst p)) r = quad r f.
Proof. reflexivity. Qed.
Lemma lsr_filter {A} (f : A -> R) (b : A -> bool) l : lsr f (filter b l) = lsr (fun a => chi (b a) * f a) l.
Proof. unfold lsr. induction l as [|a l IH]; [reflexivity|]. cbn. destruct (b a); cbn; rewrite IH; ring. Qed.
Lemma lsr_sum {A} (f : A -> R) l : lsr f l = sumR (map f l).
Proof. induction l as [|a l IH]; [reflexivity|]. unfold lsr, sumR in *. cbn. now rewrite IH. Qed.
Lemma lsr_two {A} (f g : A -> R) k1 k2 l : (forall a, In a l -> k1 * f a = k2 * g a) -> k1 * lsr f l = k2 * lsr g l.
Proof. intros H. rewrite <- !Newton.lsr_scal. now apply Newton.lsr_ext. Qed.
Lemma grid_gsum bx rx ry rz c fx fy fz (h : vec -> R) :
  (forall t, fx t = (s_x0 bx + s_x1 bx) / 2 + t * ((s_x1 bx - s_x0 bx) / 2)) -> (forall t, fy t = (s_y0 bx + s_y1 bx) / 2 + t * ((s_y1 bx - s_y0 bx) / 2)) -> (forall t, fz t = (s_z0 bx + s_z1 bx) / 2 + t * ((s_z1 bx - s_z0 bx) / 2)) ->
  (s_x1 bx - s_x0 bx) / 2 * ((s_y1 bx - s_y0 bx) / 2) * ((s_z1 bx - s_z0 bx) / 2) * lsr (fun p => pm p * h (pp p)) (gl_grid c rx ry rz fx fy fz) = c * gsum bx rx ry rz h.
Proof.
  intros Fx Fy Fz. set (kx := (s_x1 bx - s_x0 bx) / 2). set (ky := (s_y1 bx - s_y0 bx) / 2). set (kz := (s_z1 bx - s_z0 bx) / 2).
  unfold gsum, gq, gl_grid. fold kx ky kz. rewrite lsr_flat. change quad with (fun (r : rule) (f : R -> R) => lsr (fun p : R * R => snd p * f (fst p)) r). cbv beta.
  apply lsr_two. intros z _. rewrite lsr_flat. rewrite <- !Rmult_assoc. apply lsr_two. intros y _. rewrite lsr_mapp. rewrite <- !Rmult_assoc. apply lsr_two. intros x _. cbn [pm pp]. rewrite Fx, Fy, Fz. fold kx ky kz. ring.
Qed.
Lemma abs_sum c l : (forall p, In p l -> exists w, 0 < w /\ pm p = c * w) -> lsr (fun p => Rabs (pm p)) l = Rabs (sumR (map pm l)).
Proof.
  intros H. assert (K : exists w, 0 <= w /\ sumR (map pm l) = c * w /\ lsr (fun p => Rabs (pm p)) l = Rabs c * w).
  { induction l as [|p l IH]; [exists 0; split; [lra|]; split; cbn; ring|]. destruct IH as (w & W1 & W2 & W3); [intros q Hq; apply H; now right|]. destruct (H p (or_introl eq_refl)) as (w' & W4 & W5). exists (w' + w). split; [lra|].
    unfold lsr, sumR in *. cbn [map fold_right]. rewrite W2, W3, W5, Rabs_mult, (Rabs_pos_eq w') by lra. split; ring. }
  destruct K as (w & Hw & -> & ->). now rewrite Rabs_mult, (Rabs_pos_eq w Hw).
Qed.
Section Filled.
Variables (bx : span) (S : region) (J : (vec -> R) -> R) (B : body) (mass r : R).
Hypotheses (HC : gcounts bx S J) (HJ : forall g, UC V3 Rs g -> B (fun a b c => RtoC (g (a, b, c))) (RtoC (J g))) (PV : 0 < J (fun _ => 1)) (Hr : forall v, S v -> vnorm v <= r).
Hypotheses (X1 : s_x0 bx < s_x1 bx) (X2 : s_y0 bx < s_y1 bx) (X3 : s_z0 bx < s_z1 bx) (EN : encloses bx S).
(* what the sums over such an array are *)
Lemma made_sum n pts : gmade mass S bx n pts -> exists nx ny nz rx ry rz (s : vec -> bool), (n < nx)%nat /\ (n < ny)%nat /\ (n < nz)%nat /\ gauss_rule nx rx /\ gauss_rule ny ry /\ gauss_rule nz rz /\ (forall v, s v = true <-> S v) /\
  (forall p, In p pts -> S (pp p)) /\ lsr (fun p => Rabs (pm p)) pts <= Rabs mass /\
  (gsum bx rx ry rz (fun v => chi (s v) * 1) <> 0 -> forall h, lsr (fun p => pm p * h (pp p)) pts = mass * (gsum bx rx ry rz (fun v => chi (s v) * h v) / gsum bx rx ry rz (fun v => chi (s v) * 1))).
Proof using X1 X2 X3 EN.
  clear HC HJ PV Hr J B r. intros (nx & ny & nz & rx & ry & rz & c & s & fx & fy & fz & K1 & K2 & K3 & G1 & G2 & G3 & Hc & Hs & Fx & Fy & Fz & E).
  set (s' := fun v : vec => ((let '(x, y, z) := v in inb (s_x0 bx) (s_x1 bx) x && inb (s_y0 bx) (s_y1 bx) y && inb (s_z0 bx) (s_z1 bx) z) && s v)%bool).
  assert (IS : forall v : vec, (let '(x, y, z) := v in inb (s_x0 bx) (s_x1 bx) x && inb (s_y0 bx) (s_y1 bx) y && inb (s_z0 bx) (s_z1 bx) z)%bool = true <-> in_span bx v).
  { intros [[x y] z]. unfold in_span. rewrite !Bool.andb_true_iff, !inb_iff. tauto. }
  exists nx, ny, nz, rx, ry, rz, s'. do 6 (split; [assumption|]).
  assert (Hs' : forall v, s' v = true <-> S v). { intros v. unfold s'. rewrite Bool.andb_true_iff, IS. assert (H := Hs v). assert (H' := EN v). tauto. }
  split; [exact Hs'|].
  destruct (gl_grid_fills mass S bx rx ry rz c fx fy fz (fun p => s (pp p)) Hc (good_gauss _ _ G1) (good_gauss _ _ G2) (good_gauss _ _ G3) Fx Fy Fz X1 X2 X3 (fun p Hp => Hs (pp p) Hp)) as (pts' & E' & _ & F1 & (c' & F2) & F3).
  rewrite E in E'. injection E' as <-.
  assert (RW : forall v w, on_rules bx rx ry rz v w -> 0 < w). { intros [[x y] z] w (wx & wy & wz & (a & Ha & _) & (b & Hb & _) & (d & Hd & _) & ->). apply (gr_in _ _ G1) in Ha. apply (gr_in _ _ G2) in Hb. apply (gr_in _ _ G3) in Hd. cbn in Ha, Hb, Hd. apply Rmult_lt_0_compat; [apply Rmult_lt_0_compat|]; lra. }
  split; [intros p Hp; apply (F1 (pp p)); now apply in_map|]. split.
  { destruct pts as [|p l]; [cbn; apply Rabs_pos|]. rewrite (abs_sum c'). { rewrite <- total_sum, F3 by discriminate. right. reflexivity. } intros q Hq. destruct (F2 q Hq) as (w & W1 & W2). exists w. split; [now apply RW in W1|exact W2]. }
  intros HN h. set (kk := (s_x1 bx - s_x0 bx) / 2 * ((s_y1 bx - s_y0 bx) / 2) * ((s_z1 bx - s_z0 bx) / 2)). assert (Hk : 0 < kk) by (unfold kk; apply Rmult_lt_0_compat; [apply Rmult_lt_0_compat|]; lra).
  set (l := filter (fun p => s (pp p)) (gl_grid c rx ry rz fx fy fz)) in *.
  assert (GS : forall g, kk * lsr (fun p => pm p * g (pp p)) l = c * gsum bx rx ry rz (fun v => chi (s' v) * g v)).
  { intros g. unfold l. rewrite lsr_filter. rewrite (gsum_in bx nx ny nz rx ry rz (fun v => chi (s' v) * g v) (fun v => chi (s v) * g v) X1 X2 X3 G1 G2 G3).
    - unfold kk. rewrite <- (grid_gsum bx rx ry rz c fx fy fz _ Fx Fy Fz). f_equal. apply Newton.lsr_ext. intros p _. ring.
    - intros v Hv. unfold s'. apply IS in Hv. now rewrite Hv. }
  assert (G1' := GS (fun _ => 1)). assert (T1 : lsr (fun p => pm p * 1) l = sumR (map pm l)). { rewrite <- lsr_sum. apply Newton.lsr_ext. intros p _. ring. } cbv beta in G1'. rewrite T1 in G1'.
  assert (NZ : sumR (map pm l) <> 0). { intros Z. rewrite Z, Rmult_0_r in G1'. symmetry in G1'. apply Rmult_integral in G1'. tauto. }
  assert (EP : pts = map (fun p => mkpt (pm p * (mass / sumR (map pm l))) (pp p)) l).
  { unfold correct_mass in E. destruct l as [|q l']; [cbn in NZ; now contradiction NZ|]. rewrite is0_no in E by exact NZ. now injection E. }
  rewrite EP, lsr_mapp. cbn [pm pp]. rewrite (Newton.lsr_ext _ (fun p => mass / sumR (map pm l) * (pm p * h (pp p)))) by (intros; ring). rewrite Newton.lsr_scal.
  assert (GH := GS h). set (SH := gsum bx rx ry rz (fun v => chi (s' v) * h v)) in *. set (S1 := gsum bx rx ry rz (fun v => chi (s' v) * 1)) in *.
  replace (lsr (fun p => pm p * h (pp p)) l) with (c * SH / kk) by (rewrite <- GH; field; lra). replace (sumR (map pm l)) with (c * S1 / kk) by (rewrite <- G1'; field; lra).
  clear - HN Hc Hk. clearbody SH S1 kk. field. repeat split; (assumption || (apply Rgt_not_eq; exact Hk)).
Qed.
Theorem gmade_tends : tends (gmade mass S bx) (of_mass mass B) r.
Proof.
  split; [|split].
  { exists (Rabs mass). split; [apply Rabs_pos|]. intros n pts Hp. destruct (made_sum n pts Hp) as (? & ? & ? & ? & ? & ? & ? & _ & _ & _ & _ & _ & _ & _ & _ & M & _). exact M. }
  { intros n pts p Hp Hin. destruct (made_sum n pts Hp) as (? & ? & ? & ? & ? & ? & ? & _ & _ & _ & _ & _ & _ & _ & I & _). apply Hr. now apply I. }
  intros X F UF. destruct (HC X F UF) as (UI & LF). destruct (HC Rs (fun _ => 1) (UC_cst (pprod Rs V3) 1)) as (_ & L1). set (V := J (fun _ => 1)) in *.
  assert (US : forall x, UC V3 Rs (fun v => F (x, v))). { intros x. exact (UC_at X V3 F x UF). }
  exists (fun x => mass / V * J (fun v => F (x, v))). split; [now apply UC_scal|]. split.
  { intros x. exists V, (RtoC (J (fun v => F (x, v)))). split; [lra|]. split; [exact (HJ (fun _ => 1) (UC_cst V3 1))|]. split; [exact (HJ _ (US x))|]. now rewrite <- RtoC_mult. }
  intros A eps Heps. destruct (UI A) as ((MI & HMI & BI) & _). change (forall x, sn X x <= A -> Rabs (J (fun v => F (x, v))) <= MI) in BI.
  set (d := Rmin (V / 2) (eps * V ^ 2 / (2 * (Rabs mass + 1) * (V + MI)))).
  assert (PM := Rabs_pos mass). assert (V2 : 0 < V ^ 2) by (now apply pow_lt).
  assert (Hd : 0 < d). { apply Rmin_pos; [lra|]. apply Rdiv_lt_0_compat; [apply Rmult_lt_0_compat; lra|]. repeat apply Rmult_lt_0_compat; lra. }
  destruct (LF A d Hd) as (N1 & HN1 & Q4). destruct (L1 1 d Hd) as (N2 & HN2 & Q5). exists (N1 + N2)%nat. intros n pts x Hn Hp Hx.
  destruct (made_sum n pts Hp) as (nx & ny & nz & rx & ry & rz & s & M1 & M2 & M3 & G1 & G2 & G3 & Hs & _ & _ & EM).
  assert (Z1 := Q4 nx ny nz rx ry rz x s ltac:(lia) ltac:(lia) ltac:(lia) G1 G2 G3 Hx Hs).
  assert (Z2 := Q5 nx ny nz rx ry rz 0 s ltac:(lia) ltac:(lia) ltac:(lia) G1 G2 G3 ltac:(cbn; rewrite Rabs_R0; lra) Hs). cbv beta in Z2. fold V in Z2.
  assert (L0 : gsum bx rx ry rz (fun v => chi (s v) * 1) <> 0). { apply Rabs_le_between in Z2. assert (D' := Rmin_l (V / 2) (eps * V ^ 2 / (2 * (Rabs mass + 1) * (V + MI)))). fold d in D'. lra. }
  rewrite (EM L0 (fun v => F (x, v))).
  assert (R := ratio_err mass _ _ _ V MI d PV Z1 Z2 (BI x Hx) (Rmin_l _ _) HMI).
  eapply Rle_trans; [exact R|]. assert (D2 := Rmin_r (V / 2) (eps * V ^ 2 / (2 * (Rabs mass + 1) * (V + MI)))). fold d in D2.
  apply Rle_trans with ((Rabs mass + 1) * (2 * (eps * V ^ 2 / (2 * (Rabs mass + 1) * (V + MI))) * (V + MI) / V ^ 2)); [|right; field; lra].
  apply Rmult_le_compat; [exact PM| |lra|].
  + apply Rmult_le_pos; [|left; now apply Rinv_0_lt_compat]. apply Rmult_le_pos; lra.
  + apply Rmult_le_compat_r; [left; now apply Rinv_0_lt_compat|]. apply Rmult_le_compat_r; lra.
Qed.
End Filled.
Lemma tends_sub (fam fam' : nat -> list pt -> Prop) (D : body) (r : R) : (forall n pts, fam' n pts -> fam n pts) -> tends fam D r -> tends fam' D r.
Proof.
  intros H ((M & HM & B) & I & T). split; [|split].
  - exists M. split; [exact HM|]. intros n pts Hp. apply (B n). now apply H.
  - intros n pts p Hp. apply (I n). now apply H.
  - intros X F UF. destruct (T X F UF) as (G & G1 & G2 & G3). exists G. split; [exact G1|]. split; [exact G2|]. intros A eps He. destruct (G3 A eps He) as (N & Q). exists N. intros n pts x Hn Hp. apply (Q n); [exact Hn|now apply H].
Qed.
