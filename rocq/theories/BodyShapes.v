(* The solids of the library as nice bodies. *)
From Coq Require Import Reals Lra Lia.
From Coquelicot Require Import Coquelicot.
From Verif Require Import QlmProofs QlmProofs3 QlmProofs7 AchSpec BigSpec AchProofs2 AchProofs4 AchProofs7 AchProofs8 Props_BigQlm2.
From Verif Require Import Sums Newton Glib LipInt VInt SolidSpec ShapeSpec BodySpec Pg2MultiProofs Irreg2 Irreg Addition GlibProofs BodyInt.
From Verif Require Import Cplx.
Open Scope R_scope.

Lemma vnorm_in x y z r : 0 <= r -> x ^ 2 + y ^ 2 + z ^ 2 <= r ^ 2 -> vnorm (x, y, z) <= r.
Proof. intros Hr H. rewrite vnorm_xyz, <- (sqrt_pow2 r Hr). now apply sqrt_le_1_alt. Qed.
Lemma nice_int3 a b (lo1 hi1 : R -> R) (lo2 hi2 : R -> R -> R) (jac : vec -> R) (P : vec -> vec) (T : (R -> R -> R -> C) -> (R -> R -> R -> C)) r J A1 A2 :
  (forall f u v w, T f u v w = (RtoC (jac (u, v, w)) * (let '(x, y, z) := P (u, v, w) in f x y z))%C) ->
  LL Rs Rs lo1 -> LL Rs Rs hi1 -> LL (pprod Rs Rs) Rs (fun p : R * R => lo2 (fst p) (snd p)) -> LL (pprod Rs Rs) Rs (fun p : R * R => hi2 (fst p) (snd p)) ->
  LL V3 Rs jac -> LL V3 V3 P -> regular (fun f I => is_int3 a b lo1 hi1 lo2 hi2 (T f) I) -> 0 <= r -> 0 <= J ->
  (forall u, betw a b u -> Rabs (hi1 u - lo1 u) <= A1) -> (forall u v, betw a b u -> betw (lo1 u) (hi1 u) v -> Rabs (hi2 u v - lo2 u v) <= A2) ->
  (forall u v w, betw a b u -> betw (lo1 u) (hi1 u) v -> betw (lo2 u v) (hi2 u v) w -> Rabs (jac (u, v, w)) <= J /\ vnorm (P (u, v, w)) <= r) ->
  nice (fun f I => is_int3 a b lo1 hi1 lo2 hi2 (T f) I) r.
Proof.
  intros HT L1 L2 L3 L4 LJ LP RB Hr HJ H1 H2 H. split; [exact RB|now apply (confined_int3 a b lo1 hi1 lo2 hi2 jac P T r J A1 A2)|now apply (integrates_int3 a b lo1 hi1 lo2 hi2 jac P T)|exact Hr].
Qed.
Lemma betw_le a b t : a <= b -> betw a b t -> a <= t <= b.
Proof. intros H. unfold betw. rewrite Rmin_left, Rmax_right by lra. easy. Qed.
Lemma betw_sym a t : betw (- a) a t -> t ^ 2 <= a ^ 2.
Proof. unfold betw, Rmin, Rmax. destruct (Rle_dec (- a) a); intros; nra. Qed.
Lemma betw_half a t : betw (- a / 2) (a / 2) t -> t ^ 2 <= (a / 2) ^ 2.
Proof. intros H. apply betw_sym. replace (- (a / 2)) with (- a / 2) by field. exact H. Qed.
Lemma sc2 t : cos t ^ 2 + sin t ^ 2 = 1.
Proof. assert (T := sin2_cos2 t). unfold Rsqr in T. lra. Qed.
Definition polar3 (v : vec) : vec := (snd (fst v) * cos (fst (fst v)), snd (fst v) * sin (fst (fst v)), snd v).
Lemma polar3_norm ph s z r : 0 <= r -> s ^ 2 + z ^ 2 <= r ^ 2 -> vnorm (s * cos ph, s * sin ph, z) <= r.
Proof. intros Hr H. apply vnorm_in; [exact Hr|]. assert (T := sc2 ph). replace ((s * cos ph) ^ 2 + (s * sin ph) ^ 2) with (s ^ 2 * (cos ph ^ 2 + sin ph ^ 2)) by ring. rewrite T. lra. Qed.
Lemma nice_annular H Ri Ro pc ph r : 0 <= Ri <= Ro -> 0 <= r -> Ro ^ 2 + (H / 2) ^ 2 <= r ^ 2 -> nice (annular_sector H Ri Ro pc ph) r.
Proof.
  intros Hi Hr Hf. refine (nice_int3 _ _ _ _ _ _ (fun v : vec => snd (fst v)) polar3 (fun f ph r z => RtoC r * f (r * cos ph)%R (r * sin ph)%R z)%C r Ro (Rabs (Ro - Ri)) (Rabs (H / 2 - - H / 2)) _ _ _ _ _ _ _ _ Hr _ _ _ _).
  - reflexivity.
  - ll. - ll. - ll. - ll. - ll. - unfold polar3. ll.
  - apply (regular_annular H Ri Ro pc ph).
  - lra.
  - intros; lra. - intros; lra.
  - intros u v w Hu Hv Hw. cbn [fst snd]. apply betw_le in Hv; [|lra]. apply betw_half in Hw. split; [rewrite Rabs_pos_eq; lra|]. unfold polar3. cbn [fst snd]. apply polar3_norm; [exact Hr|]. nra.
Qed.
Lemma nice_standing H Ri Ro pc ph r : 0 <= Ri <= Ro -> 0 <= r -> Ro ^ 2 + H ^ 2 <= r ^ 2 -> nice (standing_sector H Ri Ro pc ph) r.
Proof.
  intros Hi Hr Hf. refine (nice_int3 _ _ _ _ _ _ (fun v : vec => snd (fst v)) polar3 (fun f ph r z => RtoC r * f (r * cos ph)%R (r * sin ph)%R z)%C r Ro (Rabs (Ro - Ri)) (Rabs (Rmax 0 H - Rmin 0 H)) _ _ _ _ _ _ _ _ Hr _ _ _ _).
  - reflexivity.
  - ll. - ll. - ll. - ll. - ll. - unfold polar3. ll.
  - apply (regular_standing H Ri Ro pc ph).
  - lra.
  - intros; lra. - intros; lra.
  - intros u v w Hu Hv Hw. cbn [fst snd]. apply betw_le in Hv; [|lra]. split; [rewrite Rabs_pos_eq; lra|]. unfold polar3. cbn [fst snd]. apply polar3_norm; [exact Hr|].
    assert (w ^ 2 <= H ^ 2). { unfold betw, Rmin, Rmax in Hw. destruct (Rle_dec 0 H); repeat match type of Hw with context [Rle_dec ?x ?y] => destruct (Rle_dec x y) end; nra. } nra.
Qed.
Lemma nice_cone P Rb pc ph r : 0 < P -> 0 <= Rb -> P <= r -> Rb <= r -> nice (cone_sector P Rb pc ph) r.
Proof.
  intros HP HR Pr Rr. assert (Hr : 0 <= r) by lra.
  refine (nice_int3 _ _ _ _ _ _ (fun v : vec => snd v) (fun v => (snd v * cos (fst (fst v)), snd v * sin (fst (fst v)), snd (fst v))) (fun f ph z r => RtoC r * f (r * cos ph)%R (r * sin ph)%R z)%C r Rb (Rabs (P - 0)) Rb _ _ _ _ _ _ _ _ Hr _ _ _ _).
  - reflexivity.
  - ll. - ll. - ll. - ll. - ll. - ll.
  - apply (regular_cone P Rb pc ph).
  - lra.
  - intros; lra.
  - intros u v Hu Hv. apply betw_le in Hv; [|lra]. assert (0 <= v / P <= 1) by (split; [apply Rdiv_le_0_compat; lra|apply (Rmult_le_reg_r P); [lra|]; unfold Rdiv; rewrite Rmult_assoc, Rinv_l; lra]). set (s := v / P) in *. clearbody s. rewrite Rabs_pos_eq; nra.
  - intros u v w Hu Hv Hw. cbn [fst snd]. apply betw_le in Hv; [|lra]. assert (Hs : 0 <= v / P <= 1) by (split; [apply Rdiv_le_0_compat; lra|apply (Rmult_le_reg_r P); [lra|]; unfold Rdiv; rewrite Rmult_assoc, Rinv_l; lra]).
    assert (Ev : v = v / P * P) by (field; lra). set (s := v / P) in *. clearbody s. apply betw_le in Hw; [|nra]. split; [rewrite Rabs_pos_eq; nra|]. apply polar3_norm; [exact Hr|]. subst v.
    assert (A : w ^ 2 <= (r * (1 - s)) ^ 2) by (apply pow_incr; nra). assert (B : (s * P) ^ 2 <= (s * r) ^ 2) by (apply pow_incr; nra). nra.
Qed.
Lemma one_f (f : R -> R -> R -> C) x y z : f x y z = (RtoC 1 * f x y z)%C. Proof. ring. Qed.
Lemma frac_01 v P : 0 < P -> 0 <= v <= P -> 0 <= v / P <= 1 /\ v = v / P * P.
Proof.
  intros HP Hv. split; [|field; lra]. split; [apply Rdiv_le_0_compat; lra|]. apply (Rmult_le_reg_r P); [lra|]. unfold Rdiv. rewrite Rmult_assoc, Rinv_l; lra.
Qed.
Lemma betw_scaled y1 y2 s t M : 0 <= s <= 1 -> y1 ^ 2 <= M -> y2 ^ 2 <= M -> betw (y1 * s) (y2 * s) t -> t ^ 2 <= M * s ^ 2.
Proof.
  intros Hs H1 H2 Ht. assert (K : forall y, y ^ 2 <= M -> (y * s) ^ 2 <= M * s ^ 2) by (intros y Hy; rewrite Rpow_mult_distr; apply Rmult_le_compat_r; [nra|exact Hy]).
  assert (K1 := K y1 H1). assert (K2 := K y2 H2). unfold betw, Rmin, Rmax in Ht. destruct (Rle_dec (y1 * s) (y2 * s)); set (p := y1 * s) in *; set (q := y2 * s) in *; clearbody p q; destruct (Rle_lt_dec 0 t); nra.
Qed.
Lemma nice_box H a b r : 0 <= r -> (a / 2) ^ 2 + (b / 2) ^ 2 + (H / 2) ^ 2 <= r ^ 2 -> nice (box H a b) r.
Proof.
  intros Hr Hf. refine (nice_int3 _ _ _ _ _ _ (fun v : vec => 1) (fun v => v) (fun f => f) r 1 (Rabs (b / 2 - - b / 2)) (Rabs (H / 2 - - H / 2)) _ _ _ _ _ _ _ _ Hr _ _ _ _).
  - intros. apply one_f.
  - ll. - ll. - ll. - ll. - ll. - apply LL_id.
  - apply (regular_box H a b).
  - lra. - intros; lra. - intros; lra.
  - intros u v w Hu Hv Hw. apply betw_half in Hu. apply betw_half in Hv. apply betw_half in Hw. split; [rewrite Rabs_pos_eq; lra|]. apply vnorm_in; [exact Hr|lra].
Qed.
Lemma Rabs_diff_bound x y A : Rabs x <= A -> Rabs y <= A -> Rabs (x - y) <= 2 * A.
Proof. intros. eapply Rle_trans; [apply Rabs_triang|]. rewrite Rabs_Ropp. lra. Qed.
Lemma nice_tri H d y1 y2 r : 0 < d -> 0 <= r -> d ^ 2 + y1 ^ 2 + (H / 2) ^ 2 <= r ^ 2 -> d ^ 2 + y2 ^ 2 + (H / 2) ^ 2 <= r ^ 2 -> nice (triangular_prism H d y1 y2) r.
Proof.
  intros Hd Hr H1 H2. refine (nice_int3 _ _ _ _ _ _ (fun v : vec => 1) (fun v => v) (fun f => f) r 1 (Rabs (y2 - y1)) (Rabs (H / 2 - - H / 2)) _ _ _ _ _ _ _ _ Hr _ _ _ _).
  - intros. apply one_f.
  - ll. - ll. - ll. - ll. - ll. - apply LL_id.
  - apply (regular_tri H d y1 y2).
  - lra.
  - intros u Hu. apply betw_le in Hu; [|lra]. destruct (frac_01 u d Hd Hu) as [Hs _]. replace (y2 * u / d - y1 * u / d) with ((y2 - y1) * (u / d)) by (field; lra). rewrite Rabs_mult, (Rabs_pos_eq (u / d)) by lra. assert (P := Rabs_pos (y2 - y1)). nra.
  - intros; lra.
  - intros u v w Hu Hv Hw. apply betw_le in Hu; [|lra]. destruct (frac_01 u d Hd Hu) as [Hs Eu]. apply betw_half in Hw. split; [rewrite Rabs_pos_eq; lra|]. apply vnorm_in; [exact Hr|].
    replace (y1 * u / d) with (y1 * (u / d)) in Hv by (field; lra). replace (y2 * u / d) with (y2 * (u / d)) in Hv by (field; lra). set (M := r ^ 2 - d ^ 2 - (H / 2) ^ 2).
    assert (B := betw_scaled y1 y2 (u / d) v M Hs ltac:(unfold M; lra) ltac:(unfold M; lra) Hv). assert (0 <= M) by (unfold M; nra). assert (u ^ 2 <= d ^ 2) by (apply pow_incr; lra).
    assert (M * (u / d) ^ 2 <= M) by (set (s := u / d) in *; clearbody s M; assert (s ^ 2 <= 1) by nra; nra). unfold M in *. lra.
Qed.
Lemma nice_corner x y z r : 0 < x <= r -> 0 < y <= r -> 0 < z <= r -> nice (corner_tetrahedron x y z) r.
Proof.
  intros Hx Hy Hz. assert (Hr : 0 <= r) by lra. refine (nice_int3 _ _ _ _ _ _ (fun v : vec => 1) (fun v => v) (fun f => f) r 1 y z _ _ _ _ _ _ _ _ Hr _ _ _ _).
  - intros. apply one_f.
  - ll. - ll. - ll. - ll. - ll. - apply LL_id.
  - apply (regular_corner x y z).
  - lra.
  - intros u Hu. apply betw_le in Hu; [|lra]. destruct (frac_01 u x ltac:(lra) Hu) as [Hs _]. set (s := u / x) in *. clearbody s. rewrite Rabs_pos_eq; nra.
  - intros u v Hu Hv. apply betw_le in Hu; [|lra]. destruct (frac_01 u x ltac:(lra) Hu) as [Hs _]. set (s := u / x) in *. clearbody s. apply betw_le in Hv; [|nra]. destruct (frac_01 v y ltac:(lra) ltac:(nra)) as [Ht Ev]. set (t := v / y) in *. clearbody t. assert (t <= 1 - s) by nra. rewrite Rabs_pos_eq; nra.
  - intros u v w Hu Hv Hw. apply betw_le in Hu; [|lra]. destruct (frac_01 u x ltac:(lra) Hu) as [Hs Eu]. set (s := u / x) in *. clearbody s. apply betw_le in Hv; [|nra]. destruct (frac_01 v y ltac:(lra) ltac:(nra)) as [Ht Ev]. set (t := v / y) in *. clearbody t. assert (t <= 1 - s) by nra.
    apply betw_le in Hw; [|nra]. split; [rewrite Rabs_pos_eq; lra|]. apply vnorm_in; [exact Hr|]. assert (u + v + w <= r) by nra. assert (0 <= u) by lra. assert (0 <= v) by lra. assert (0 <= w) by lra.
    assert ((u + v + w) ^ 2 <= r ^ 2) by (apply pow_incr; lra). nra.
Qed.
Lemma nice_apex x y1 y2 z r : 0 < x -> 0 < z <= r -> x ^ 2 + y1 ^ 2 <= r ^ 2 -> x ^ 2 + y2 ^ 2 <= r ^ 2 -> nice (apex_tetrahedron x y1 y2 z) r.
Proof.
  intros Hx Hz H1 H2. assert (Hr : 0 <= r) by lra.
  refine (nice_int3 _ _ _ _ _ _ (fun v : vec => 1) (fun v => (snd (fst v), snd v, fst (fst v))) (fun f w u v => f u v w) r 1 x (Rabs (y2 - y1)) _ _ _ _ _ _ _ _ Hr _ _ _ _).
  - intros. apply one_f.
  - ll. - ll. - ll. - ll. - ll. - ll.
  - apply (regular_apex x y1 y2 z).
  - lra.
  - intros u Hu. apply betw_le in Hu; [|lra]. destruct (frac_01 u z ltac:(lra) Hu) as [Hs _]. set (s := u / z) in *. clearbody s. rewrite Rabs_pos_eq; nra.
  - intros w u Hw Hu. apply betw_le in Hw; [|lra]. destruct (frac_01 w z ltac:(lra) Hw) as [Hs _]. set (s := w / z) in *. clearbody s. apply betw_le in Hu; [|nra]. destruct (frac_01 u x Hx ltac:(nra)) as [Ht _].
    replace (y2 * u / x - y1 * u / x) with ((y2 - y1) * (u / x)) by (field; lra). rewrite Rabs_mult, (Rabs_pos_eq (u / x)) by lra. assert (P := Rabs_pos (y2 - y1)). nra.
  - intros w u v Hw Hu Hv. cbn [fst snd]. apply betw_le in Hw; [|lra]. destruct (frac_01 w z ltac:(lra) Hw) as [Hs Ew]. set (s := w / z) in *. clearbody s. apply betw_le in Hu; [|nra]. destruct (frac_01 u x Hx ltac:(nra)) as [Ht Eu].
    split; [rewrite Rabs_pos_eq; lra|]. apply vnorm_in; [exact Hr|].
    replace (y1 * u / x) with (y1 * (u / x)) in Hv by (field; lra). replace (y2 * u / x) with (y2 * (u / x)) in Hv by (field; lra).
    assert (B := betw_scaled y1 y2 (u / x) v (r ^ 2 - x ^ 2) Ht ltac:(lra) ltac:(lra) Hv). set (p := u / x) in *. clearbody p. assert (p <= 1 - s) by nra.
    assert (u ^ 2 = x ^ 2 * p ^ 2) by (rewrite Eu; ring). assert (p ^ 2 <= (1 - s) ^ 2) by (apply pow_incr; lra). assert (w ^ 2 <= (s * r) ^ 2) by (apply pow_incr; nra).
    assert (u ^ 2 + v ^ 2 <= r ^ 2 * p ^ 2) by nra. assert (r ^ 2 * p ^ 2 <= r ^ 2 * (1 - s) ^ 2) by (apply Rmult_le_compat_l; [nra|assumption]). nra.
Qed.
Lemma nice_pyramid x y z r : 0 <= x -> 0 <= y -> 0 < z <= r -> x ^ 2 + y ^ 2 <= r ^ 2 -> nice (rect_pyramid x y z) r.
Proof.
  intros Hx Hy Hz H1. assert (Hr : 0 <= r) by lra.
  refine (nice_int3 _ _ _ _ _ _ (fun v : vec => 1) (fun v => (snd (fst v), snd v, fst (fst v))) (fun f w u v => f u v w) r 1 (2 * x) (2 * y) _ _ _ _ _ _ _ _ Hr _ _ _ _).
  - intros. apply one_f.
  - ll. - ll. - ll. - ll. - ll. - ll.
  - apply (regular_pyramid x y z).
  - lra.
  - intros u Hu. apply betw_le in Hu; [|lra]. destruct (frac_01 u z ltac:(lra) Hu) as [Hs _]. set (s := u / z) in *. clearbody s. rewrite Rabs_pos_eq; nra.
  - intros w u Hw Hu. apply betw_le in Hw; [|lra]. destruct (frac_01 w z ltac:(lra) Hw) as [Hs _]. set (s := w / z) in *. clearbody s. rewrite Rabs_pos_eq; nra.
  - intros w u v Hw Hu Hv. cbn [fst snd]. apply betw_le in Hw; [|lra]. destruct (frac_01 w z ltac:(lra) Hw) as [Hs Ew]. set (s := w / z) in *. clearbody s.
    split; [rewrite Rabs_pos_eq; lra|]. apply vnorm_in; [exact Hr|].
    apply (betw_scaled (- x) x (1 - s) u (x ^ 2)) in Hu; [|lra|nra|nra]. apply (betw_scaled (- y) y (1 - s) v (y ^ 2)) in Hv; [|lra|nra|nra].
    assert (w ^ 2 <= (s * r) ^ 2) by (apply pow_incr; nra). assert ((x ^ 2 + y ^ 2) * (1 - s) ^ 2 <= r ^ 2 * (1 - s) ^ 2) by (apply Rmult_le_compat_r; [nra|assumption]). nra.
Qed.
Lemma nice_ball Rb r : 0 <= Rb <= r -> nice (solid_ball Rb) r.
Proof.
  intros HR. assert (Hr : 0 <= r) by lra. assert (Hpi := PI_RGT_0).
  refine (nice_int3 _ _ _ _ _ _ (fun v : vec => snd v ^ 2 * sin (snd (fst v))) (fun v => (snd v * sin (snd (fst v)) * cos (fst (fst v)), snd v * sin (snd (fst v)) * sin (fst (fst v)), snd v * cos (snd (fst v))))
    (fun f ph th r => RtoC (r ^ 2 * sin th) * f (r * sin th * cos ph)%R (r * sin th * sin ph)%R (r * cos th)%R)%C r (Rb ^ 2) (Rabs (PI - 0)) (Rabs (Rb - 0)) _ _ _ _ _ _ _ _ Hr _ _ _ _).
  - reflexivity.
  - ll. - ll. - ll. - ll. - ll. - ll.
  - apply (regular_ball Rb).
  - nra. - intros; lra. - intros; lra.
  - intros u v w Hu Hv Hw. cbn [fst snd]. apply betw_le in Hw; [|lra]. split.
    + rewrite Rabs_mult, (Rabs_pos_eq (w ^ 2)) by nra. assert (A : Rabs (sin v) <= 1) by (apply Rabs_le; apply SIN_bound). assert (B := Rabs_pos (sin v)). assert (w ^ 2 <= Rb ^ 2) by (apply pow_incr; lra). assert (0 <= w ^ 2) by nra. set (p := w ^ 2) in *. set (q := Rb ^ 2) in *. set (s := Rabs (sin v)) in *. clearbody p q s. nra.
    + apply (polar3_norm u (w * sin v) (w * cos v) r Hr). replace ((w * sin v) ^ 2 + (w * cos v) ^ 2) with (w ^ 2 * (cos v ^ 2 + sin v ^ 2)) by ring. rewrite sc2, Rmult_1_r. apply pow_incr. lra.
Qed.
Lemma nice_frustum z0 h ra rb r : 0 < h -> 0 <= ra -> 0 <= rb -> 0 <= r -> ra ^ 2 + z0 ^ 2 <= r ^ 2 -> rb ^ 2 + (z0 + h) ^ 2 <= r ^ 2 -> nice (frustum z0 h ra rb) r.
Proof.
  intros Hh Ha Hb Hr H1 H2.
  refine (nice_int3 _ _ _ _ _ _ (fun v : vec => snd v) (fun v => (snd v * cos (fst (fst v)), snd v * sin (fst (fst v)), snd (fst v))) (fun f ph z r => RtoC r * f (r * cos ph)%R (r * sin ph)%R z)%C r (ra + rb) (Rabs (z0 + h - z0)) (ra + rb) _ _ _ _ _ _ _ _ Hr _ _ _ _).
  - reflexivity.
  - ll. - ll. - ll. - ll. - ll. - ll.
  - apply (regular_frustum z0 h ra rb).
  - lra. - intros; lra.
  - intros u v Hu Hv. apply betw_le in Hv; [|lra]. destruct (frac_01 (v - z0) h Hh ltac:(lra)) as [Hs _]. set (s := (v - z0) / h) in *. clearbody s. rewrite Rabs_pos_eq; nra.
  - intros u v w Hu Hv Hw. cbn [fst snd]. apply betw_le in Hv; [|lra]. destruct (frac_01 (v - z0) h Hh ltac:(lra)) as [Hs Ev]. set (s := (v - z0) / h) in *. clearbody s.
    apply betw_le in Hw; [|nra]. split; [rewrite Rabs_pos_eq; nra|]. apply polar3_norm; [exact Hr|].
    assert (w ^ 2 <= (ra * (1 - s) + rb * s) ^ 2) by (apply pow_incr; nra). assert (E : v = z0 * (1 - s) + (z0 + h) * s) by nra. set (z1 := z0 + h) in *. clearbody z1.
    assert (K : forall p q, (p * (1 - s) + q * s) ^ 2 <= p ^ 2 * (1 - s) + q ^ 2 * s). { intros p q. assert (0 <= s * (1 - s) * (p - q) ^ 2) by (apply Rmult_le_pos; [nra|apply pow2_ge_0]). nra. }
    assert (K1 := K ra rb). assert (K2 := K z0 z1). rewrite <- E in K2. assert ((ra ^ 2 + z0 ^ 2) * (1 - s) <= r ^ 2 * (1 - s)) by (apply Rmult_le_compat_r; lra). assert ((rb ^ 2 + z1 ^ 2) * s <= r ^ 2 * s) by (apply Rmult_le_compat_r; lra). nra.
Qed.
Lemma nice_trap t w1 w2 h r : 0 < h -> 0 <= r -> h ^ 2 + (w1 / 2) ^ 2 + (t / 2) ^ 2 <= r ^ 2 -> h ^ 2 + (w2 / 2) ^ 2 + (t / 2) ^ 2 <= r ^ 2 -> nice (trapezoidal_plate t w1 w2 h) r.
Proof.
  intros Hh Hr H1 H2. refine (nice_int3 _ _ _ _ _ _ (fun v : vec => 1) (fun v => v) (fun f => f) r 1 (2 * r) (Rabs (t / 2 - - t / 2)) _ _ _ _ _ _ _ _ Hr _ _ _ _).
  - intros. apply one_f.
  - ll. - ll. - ll. - ll. - ll. - apply LL_id.
  - apply (regular_trap t w1 w2 h).
  - lra.
  - intros x Hx. apply betw_le in Hx; [|lra]. destruct (frac_01 x h Hh Hx) as [Hs _]. set (s := x / h) in *. clearbody s. set (W := (w1 + (w2 - w1) * s) / 2). assert (E : W = (w1 / 2) * (1 - s) + (w2 / 2) * s) by (unfold W; field).
    assert (A : forall p, (p / 2) ^ 2 <= r ^ 2 -> - r <= p / 2 <= r) by (intros p Hp; split; nra). assert (A1 := A w1 ltac:(nra)). assert (A2 := A w2 ltac:(nra)). apply Rabs_le. split; nra.
  - intros; lra.
  - intros x y z Hx Hy Hz. apply betw_le in Hx; [|lra]. destruct (frac_01 x h Hh Hx) as [Hs _]. set (s := x / h) in *. clearbody s. set (W := (w1 + (w2 - w1) * s) / 2) in *. assert (E : W = (w1 / 2) * (1 - s) + (w2 / 2) * s) by (unfold W; field). clearbody W.
    apply betw_sym in Hy. apply betw_half in Hz. split; [rewrite Rabs_pos_eq; lra|]. apply vnorm_in; [exact Hr|]. assert (x ^ 2 <= h ^ 2) by (apply pow_incr; lra).
    set (p := w1 / 2) in *. set (q := w2 / 2) in *. set (u := t / 2) in *. clearbody p q u.
    assert (K : (p * (1 - s) + q * s) ^ 2 <= p ^ 2 * (1 - s) + q ^ 2 * s). { assert (0 <= s * (1 - s) * (p - q) ^ 2) by (apply Rmult_le_pos; [nra|apply pow2_ge_0]). nra. }
    rewrite <- E in K. assert (p ^ 2 * (1 - s) <= (r ^ 2 - h ^ 2 - u ^ 2) * (1 - s)) by (apply Rmult_le_compat_r; lra). assert (q ^ 2 * s <= (r ^ 2 - h ^ 2 - u ^ 2) * s) by (apply Rmult_le_compat_r; lra). nra.
Qed.
Lemma nice_segment t Rb d r : 0 <= r -> Rb ^ 2 + (t / 2) ^ 2 <= r ^ 2 -> nice (cylinder_segment t Rb d) r.
Proof.
  intros Hr H. refine (nice_int3 _ _ _ _ _ _ (fun v : vec => Rb * sin (fst (fst v))) (fun v => (Rb * cos (fst (fst v)), snd (fst v), snd v)) (fun f u y z => RtoC (Rb * sin u) * f (Rb * cos u)%R y z)%C r (Rabs Rb) (2 * Rabs Rb) (Rabs (t / 2 - - t / 2)) _ _ _ _ _ _ _ _ Hr _ _ _ _).
  - reflexivity.
  - ll. - ll. - ll. - ll. - ll. - ll.
  - apply (regular_seg t Rb d).
  - apply Rabs_pos.
  - intros u _. assert (A : Rabs (sin u) <= 1) by (apply Rabs_le; apply SIN_bound). replace (Rb * sin u - - (Rb * sin u)) with (2 * Rb * sin u) by ring. rewrite !Rabs_mult, (Rabs_pos_eq 2) by lra. assert (P := Rabs_pos Rb). set (k := Rabs Rb) in *. set (s := Rabs (sin u)) in *. clearbody k s. nra.
  - intros; lra.
  - intros u y z Hu Hy Hz. cbn [fst snd]. apply betw_sym in Hy. apply betw_half in Hz. split.
    + assert (A : Rabs (sin u) <= 1) by (apply Rabs_le; apply SIN_bound). rewrite Rabs_mult. assert (P := Rabs_pos Rb). nra.
    + apply vnorm_in; [exact Hr|]. assert (E := sc2 u). assert (((Rb * cos u) ^ 2 + (Rb * sin u) ^ 2 = Rb ^ 2)) by (rewrite <- (Rmult_1_r (Rb ^ 2)), <- E; ring). lra.
Qed.
Lemma nice_hole t Rb th r : cos th <> 0 -> 0 <= Rb -> 0 <= r -> Rabs t / 2 + Rb <= r * Rabs (cos th) -> nice (slanted_hole t Rb th) r.
Proof.
  intros Hc HR Hr H. refine (nice_int3 _ _ _ _ _ _ (fun v : vec => snd (fst v) / cos th) (fun v => (snd v * tan th + snd (fst v) * cos (fst (fst v)) / cos th, snd (fst v) * sin (fst (fst v)), snd v))
    (fun f ph s z => RtoC (s / cos th) * f (z * tan th + s * cos ph / cos th)%R (s * sin ph)%R z)%C r (Rb * Rabs (/ cos th)) (Rabs (Rb - 0)) (Rabs (t / 2 - - t / 2)) _ _ _ _ _ _ _ _ Hr _ _ _ _).
  - reflexivity.
  - ll. - ll. - ll. - ll. - ll. - ll.
  - apply (regular_hole t Rb th).
  - apply Rmult_le_pos; [exact HR|apply Rabs_pos].
  - intros; lra. - intros; lra.
  - intros ph s z _ Hs Hz. cbn [fst snd]. apply betw_le in Hs; [|lra]. apply betw_half in Hz. split.
    + unfold Rdiv. rewrite Rabs_mult, (Rabs_pos_eq s) by lra. apply Rmult_le_compat_r; [apply Rabs_pos|lra].
    + assert (Hk := Rabs_pos_lt _ Hc). set (k := Rabs (cos th)) in *. assert (Ek : k ^ 2 = cos th ^ 2) by (unfold k; apply pow2_abs).
      apply (Rmult_le_reg_r k); [exact Hk|]. eapply Rle_trans; [|exact H]. eapply Rle_trans; [|apply Rplus_le_compat_l; exact (proj2 Hs)].
      replace (z * tan th + s * cos ph / cos th, s * sin ph, z) with (vadd (z * tan th, 0, z) (s * cos ph / cos th, s * sin ph, 0)) by (unfold vadd; apply v3; ring).
      eapply Rle_trans; [apply Rmult_le_compat_r; [lra|apply vnorm_triangle]|]. rewrite Rmult_plus_distr_r. apply Rplus_le_compat.
      * assert (E : vnorm (z * tan th, 0, z) * k = Rabs z).
        { rewrite vnorm_xyz. rewrite <- (sqrt_pow2 k) by lra. rewrite <- sqrt_mult_alt by nra. rewrite Ek. rewrite <- sqrt_Rsqr_abs. f_equal. unfold Rsqr, tan. transitivity (z * z * (cos th ^ 2 + sin th ^ 2)); [field; exact Hc|rewrite sc2; ring]. }
        rewrite E. rewrite <- (Rabs_pos_eq 2) by lra. unfold Rdiv. rewrite <- Rabs_inv, <- Rabs_mult. apply Rsqr_le_abs_0. unfold Rsqr. unfold Rdiv in Hz. lra.
      * rewrite vnorm_xyz. rewrite <- (sqrt_pow2 k) by lra. rewrite <- sqrt_mult_alt by nra. rewrite Ek. eapply Rle_trans; [|right; apply (sqrt_pow2 s); lra]. apply sqrt_le_1_alt.
        replace (((s * cos ph / cos th) ^ 2 + (s * sin ph) ^ 2 + 0 ^ 2) * cos th ^ 2) with (s ^ 2 * (cos ph ^ 2 + sin ph ^ 2 * cos th ^ 2)) by (field; exact Hc).
        assert (S1 := sc2 ph). assert (S2 := sc2 th). assert (0 <= sin th ^ 2) by nra. assert (0 <= sin ph ^ 2) by nra. assert (sin ph ^ 2 * cos th ^ 2 <= sin ph ^ 2) by nra. assert (0 <= s ^ 2) by nra.
        assert (Cc : cos ph ^ 2 + sin ph ^ 2 * cos th ^ 2 <= 1) by lra. set (c := cos ph ^ 2 + sin ph ^ 2 * cos th ^ 2) in *. eapply Rle_trans; [apply Rmult_le_compat_l; [assumption|exact Cc]|]. lra.
Qed.
