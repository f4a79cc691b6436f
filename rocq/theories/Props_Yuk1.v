(* C47 continued: pg2Multi.imoment, the single Yukawa inner moment (newt/pg2Multi.py:72-105). *)
From Coq Require Import Reals ZArith List Lia Lra Bool.
From Coquelicot Require Import Coquelicot.
From Verif Require Import Sums MathSpec Tri Res Solid Arr MomentSpec Pg2Multi Pg2MultiProofs Props_Moments.
From Verif Require Import Cplx.
Import ListNotations.
Open Scope C_scope.

(* the promised value, for every order: points in spherical coordinates, none at the origin *)
Theorem C47_imoment_single : forall l m lmbd S, (0 <= l)%Z -> (Z.abs m <= l)%Z ->
  (forall s, In s S -> 0 <= s_th s <= PI /\ 0 < s_r s)%R ->
  imoment spherical_in l m lmbd (map cart S) = Ok (yuk_moment lmbd S l m).
Proof.
  intros l m lmbd S Hl Hm H. unfold imoment.
  assert (HF : forall s, In s S -> nzp (cart s) = true).
  { intros s Hs. destruct (H s Hs). apply nzp_true. rewrite vnorm_cart by lra. lra. }
  destruct (Z.eqb_spec l 0) as [->|Hl0].
  - assert (m = 0)%Z by lia. subst m. f_equal. unfold csum, yuk_moment. rewrite !lsum_map. apply lsum_ext.
    intros s Hs. destruct (H s Hs) as [Ht Hr]. rewrite vnorm_cart by lra. cbn [cart pm].
    assert (HZ := sph_harm_solid 0 0 (s_r s) (s_th s) (s_ph s) ltac:(lia) Ht).
    cbn [Z.to_nat pow] in HZ.
    assert (E0 : Cconj (sph_harm 0 0 (s_ph s) (s_th s)) = RtoC (/ sqrt (4 * PI))).
    { unfold sph_harm. cbn [Z.ltb Z.compare Z.abs]. unfold Plm. cbn. replace (0 * s_ph s)%R with 0%R by ring.
      rewrite cexpi_0, Cmult_1_r, Cconj_RtoC. f_equal. unfold zfact. simpl.
      assert (HP := PI_RGT_0). rewrite <- sqrt_inv. rewrite ?Rmult_1_r. f_equal. field. lra. }
    rewrite E0. unfold Rdiv at 1. rewrite RtoC_mult. reflexivity.
  - rewrite ths_phs.
    assert (Ef : filter nzp (map cart S) = map cart S).
    { clear -HF. induction S as [|s S IH]; [reflexivity|]. cbn [map filter]. rewrite (HF s) by now left.
      f_equal. apply IH. intros; apply HF; now right. }
    rewrite Ef. set (ma := map cart S). rewrite (map_map _ _ ma). cbn [fst snd]. unfold bcast2. rewrite !map_length, Nat.eqb_refl.
    rewrite combine_map2, map_map. unfold ma. cbn [bind fst snd].
    f_equal. unfold csum, yuk_moment. rewrite !lsum_map. apply lsum_ext. intros s Hs. destruct (H s Hs) as [Ht Hr].
    rewrite vnorm_cart by lra. cbn [cart pm]. f_equal.
    assert (HY := Yp_rsolid l m (cart s) Hm ltac:(rewrite vnorm_cart by lra; lra)).
    rewrite vnorm_cart in HY by lra.
    assert (HZ := sph_harm_solid l m (s_r s) (s_th s) (s_ph s) Hm Ht).
    assert (Hne : RtoC (s_r s ^ Z.to_nat l) <> 0) by (apply RtoC_neq0, pow_nonzero; lra).
    unfold Yp in HY.
    transitivity (RtoC (s_r s ^ Z.to_nat l) * Cconj (Yp m l (cart s)) / RtoC (s_r s ^ Z.to_nat l)); [unfold Yp; field; exact Hne|].
    unfold Yp. rewrite HY. unfold cart at 1; cbn [pp rsolid]. rewrite <- HZ. field. exact Hne.
Qed.
Print Assumptions C47_imoment_single.

(* when it fails: with l >= 1 the angles are only computed for the points off the origin, and numpy
   refuses the product unless the two lengths agree or one of them is 1; l = 0 never fails *)
Theorem C47_imoment_domain : forall bes l m lmbd ma, (0 <= l)%Z ->
  let off := length (filter nzp ma) in
  (exists q, imoment bes l m lmbd ma = Ok q) <->
  (l = 0%Z \/ off = length ma \/ off = 1%nat \/ length ma = 1%nat).
Proof.
  intros bes l m lmbd ma Hl off. unfold imoment. destruct (Z.eqb_spec l 0) as [E|E].
  - split; [intros; now left|]. intros _. eexists. reflexivity.
  - rewrite ths_phs, map_map. cbn [fst snd]. unfold bcast2. rewrite !map_length. fold off.
    destruct (Nat.eqb_spec (length ma) off) as [E1|E1].
    + cbn [bind]. split; [intros _; right; left; lia|]. intros _. eexists. reflexivity.
    + unfold off in *. clear off. destruct ma as [|p [|p' ma]].
      * exfalso. apply E1. reflexivity.
      * cbn [map bind]. split; [intros _; right; right; right; reflexivity|]. intros _. eexists. reflexivity.
      * set (f := filter nzp (p :: p' :: ma)) in *. clearbody f. cbn [map length] in *.
        destruct f as [|a [|b f]]; cbn [map bind length] in *.
        -- split; [intros [q Hq]; discriminate|]. intros [?|[?|[?|?]]]; lia.
        -- split; [intros _; right; right; left; reflexivity|]. intros _. eexists. reflexivity.
        -- split; [intros [q Hq]; discriminate|]. intros [?|[?|[?|?]]]; lia.
Qed.
Print Assumptions C47_imoment_domain.

(* the array version agrees with the single moments exactly where its Bessel order is right: in the rows 0 and L;
   every other row n holds the number i_L in place of i_n *)
Theorem C47_imoments_top_row : forall L lmbd S, (1 <= L)%Z ->
  (forall s, In s S -> 0 <= s_th s <= PI /\ 0 < s_r s)%R ->
  exists q, imoments spherical_in L lmbd (map cart S) = Ok q /\
   forall m, (Z.abs m <= L)%Z -> imoment spherical_in L m lmbd (map cart S) = Ok (mom q L m).
Proof.
  intros L lmbd S HL H. destruct (C47_imoments_uses_max_order L lmbd S ltac:(lia) H) as (q & E & D & Hq).
  exists q. split; [exact E|]. intros m Hm. rewrite C47_imoment_single by (assumption || lia).
  rewrite Hq by lia. reflexivity.
Qed.
Print Assumptions C47_imoments_top_row.

(* two points off the origin, order 2 *)
Example C47_single_case : forall lmbd,
  imoment spherical_in 2 1 lmbd (map cart (mksph 1 1 0 0 :: mksph 3 2 1 1 :: nil))
  = Ok (yuk_moment lmbd (mksph 1 1 0 0 :: mksph 3 2 1 1 :: nil) 2 1).
Proof.
  intros. apply C47_imoment_single; [lia|lia|]. intros s [<-|[<-|[]]]; cbn; assert (H := PI2_1); lra.
Qed.
(* one point at the origin among three: refused *)
Example C47_domain_case : ~ exists q, imoment spherical_in 1 0 1
  (mkpt 1 (0, 0, 0)%R :: mkpt 1 (1, 0, 0)%R :: mkpt 1 (0, 1, 0)%R :: nil) = Ok q.
Proof.
  rewrite C47_imoment_domain by lia. cbn [filter].
  assert (E0 : nzp (mkpt 1 (0, 0, 0)%R) = false) by (apply nzp_false; reflexivity).
  assert (E1 : nzp (mkpt 1 (1, 0, 0)%R) = true).
  { match goal with |- ?x = true => destruct x eqn:E end; [reflexivity|]. apply nzp_false in E. injection E. intros; lra. }
  assert (E2 : nzp (mkpt 1 (0, 1, 0)%R) = true).
  { match goal with |- ?x = true => destruct x eqn:E end; [reflexivity|]. apply nzp_false in E. injection E. intros; lra. }
  rewrite E0, E1, E2. cbn [length]. lia.
Qed.
