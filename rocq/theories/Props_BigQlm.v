(* C48, C11, C37 (bigQlm.py): outer moments of a sphere and of an annular sector *)
From Verif Require Import BigQlm Pg2MultiProofs AchProofs Props_Qlm.
From Verif Require Import Cplx.
Open Scope C_scope.

(* ---- C48: a sphere away from the origin has the outer moments of a point mass at its centre ---- *)
Theorem C48_sphere_is_a_point_mass : forall L dens Rad x y z, (0 <= L)%Z -> (x, y, z) <> v0 ->
  exists Q, big_sphere L dens Rad x y z = Ok Q /\ deg Q = L /\
  holds Q (outer_moment (mkpt (dens * (4 / 3 * PI * Rad ^ 3)) (x, y, z) :: nil)).
Proof.
  intros L dens Rad x y z HL Hv. unfold big_sphere.
  assert (Hd : vnorm (x, y, z) <> 0%R).
  { apply (not_origin_norm (mkpt 0 (x, y, z))). exact Hv. }
  unfold vnorm in Hd. unfold req. destruct (Req_EM_T (sqrt (x ^ 2 + y ^ 2 + z ^ 2)) 0) as [E|_]; [contradiction|].
  eexists. split; [reflexivity|].
  assert (H : forall p, In p (mkpt (dens * (4 / 3 * PI * Rad ^ 3)) (x, y, z) :: nil) -> ~ at_origin p).
  { intros p [<-|[]]. exact Hv. }
  destruct (Qmomentsb_good L _ HL H) as [D G]. unfold Qmomentsb in D, G. rewrite (no_origin _ H) in D, G.
  split; [rewrite deg_reflect, deg_fill by lia; reflexivity|].
  erewrite fill_ext; [exact G|lia|]. intros n m Hn Hm. cbv beta. cbn [map]. unfold csum. cbn [lsum fold_right]. cbn [pm pp]. unfold ph_of, th_of. cbn [pp].
  unfold vnorm. replace (dens * (4 * PI * Rad ^ 3) / 3)%R with (dens * (4 / 3 * PI * Rad ^ 3))%R by field. ring.
Qed.
Theorem C48_sphere_at_the_origin : forall L dens Rad, big_sphere L dens Rad 0 0 0 = Err ValueError.
Proof.
  intros. unfold big_sphere. unfold req. destruct (Req_EM_T _ 0) as [_|E]; [reflexivity|]. exfalso. apply E.
  replace (0 ^ 2 + 0 ^ 2 + 0 ^ 2)%R with 0%R by ring. apply sqrt_0.
Qed.
Theorem C37_big_sphere : forall L dens Rad x y z, (0 <= L)%Z ->
  ((x, y, z) = v0 -> big_sphere L dens Rad x y z = Err ValueError) /\
  ((x, y, z) <> v0 -> exists Q, big_sphere L dens Rad x y z = Ok Q /\ deg Q = L).
Proof.
  intros L dens Rad x y z HL. split; intros H.
  - injection H; intros; subst. apply C48_sphere_at_the_origin.
  - destruct (C48_sphere_is_a_point_mass L dens Rad x y z HL H) as (Q & E & D & _). exists Q. auto.
Qed.
(* ---- C37: the guard of annulus; r0 = 0, which the documentation excludes but the guard lets pass, gives nan ---- *)
Theorem C37_big_annulus : forall L dens H r0 r1 phic phih, (0 <= L)%Z ->
  let bad := (H = 0 \/ r1 < r0 \/ r1 < 0 \/ r0 < 0 \/ phih <= 0 \/ PI < phih)%R in
  (bad -> big_annulus L dens H r0 r1 phic phih = Err ValueError) /\
  (~ bad -> r0 = 0%R -> big_annulus L dens H r0 r1 phic phih = Err NotFinite) /\
  (~ bad -> r0 <> 0%R -> exists Q, big_annulus L dens H r0 r1 phic phih = Ok Q /\ deg Q = L).
Proof.
  intros L dens H r0 r1 phic phih HL bad. unfold big_annulus, req, rlt, rle.
  destruct (Req_EM_T H 0), (Rlt_dec r1 r0), (Rlt_dec r1 0), (Rlt_dec r0 0), (Rle_dec phih 0), (Rlt_dec PI phih); cbn [orb];
   try (split; [reflexivity|split; intros HB; exfalso; apply HB; unfold bad; tauto]).
  split; [intros HB; exfalso; unfold bad in HB; tauto|].
  split; intros _ E; destruct (Req_EM_T r0 0); try contradiction; [reflexivity|].
  eexists. split; [reflexivity|]. apply deg_ach.
Qed.
Example C37_big_annulus_nonvacuous : exists Q, big_annulus 3 1 2 1 2 0 1 = Ok Q /\ deg Q = 3%Z.
Proof.
  apply (C37_big_annulus 3 1 2 1 2 0 1); [lia| |intros ?; lra]. assert (G := PI2_3_2). intros [E|[E|[E|[E|[E|E]]]]]; unfold PI2 in *; lra.
Qed.
(* ---- C11 ---- *)
Lemma big_tabwf dens H r0 r1 phic phih :
  tabwf (map (fun '((l, m), v) => ((l, m), RtoC v * cexpi (- (IZR m * phic)))) (big_annulus_tab dens H r0 r1 phih)) = true.
Proof. reflexivity. Qed.
Theorem C11_bigQlm_reality : forall L q, (0 <= L)%Z ->
  (exists dens Rad x y z, big_sphere L dens Rad x y z = Ok q) \/ (exists dens H r0 r1 phic phih, big_annulus L dens H r0 r1 phic phih = Ok q) ->
  deg q = L /\ reality q /\ corners0 q.
Proof.
  intros L q HL [(dens & Rad & x & y & z & E)|(dens & H & r0 & r1 & phic & phih & E)].
  - unfold big_sphere in E. destruct (req _ _); [discriminate|]. injection E as <-.
    split; [rewrite deg_reflect, deg_fill by lia; reflexivity|]. eapply reflect_reality, half_fill, HL.
  - unfold big_annulus in E. destruct (_ || _)%bool; [discriminate|]. destruct (req _ _); [discriminate|]. injection E as <-.
    split; [apply deg_ach|]. apply ach_reality; [exact HL|apply big_tabwf].
Qed.
Print Assumptions C48_sphere_is_a_point_mass.
Print Assumptions C11_bigQlm_reality.
