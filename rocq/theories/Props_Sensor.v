(** * C89: only the pose of the object in the sensor's frame matters to the renderers *)
From Coq Require Import ZArith NArith List Bool Lia Reals Lra.
From Verif Require Import Num MathTypes Outcome Mesh Laser Depth Spec SpecLaser P_Tac P_Math Props_Math.
Import ListNotations.
Local Open Scope R_scope.

(** a transform is determined by what it does to points *)
Lemma moved_apply : forall (t : trans3 R) v, tapply t v = s_moved t v.
Proof. intros [[m11 m12 m13 m21 m22 m23 m31 m32 m33] [x y z]] [a b c]. unfold s_moved. unmath. f_equal; ring. Qed.
Lemma trans_ext : forall a b : trans3 R, (forall v, tapply a v = tapply b v) -> a = b.
Proof.
  intros [[a11 a12 a13 a21 a22 a23 a31 a32 a33] [ax ay az]] [[b11 b12 b13 b21 b22 b23 b31 b32 b33] [bx by_ bz]] H.
  pose proof (H (V3 0 0 0)) as H0. pose proof (H (V3 1 0 0)) as H1. pose proof (H (V3 0 1 0)) as H2. pose proof (H (V3 0 0 1)) as H3. clear H.
  revert H0 H1 H2 H3. unmath. intros H0 H1 H2 H3. injection H0 as H01 H02 H03. injection H1 as H11 H12 H13. injection H2 as H21 H22 H23. injection H3 as H31 H32 H33.
  f_equal; f_equal; lra.
Qed.
Lemma relative : forall cam obj rel : trans3 R, rigid cam -> (forall v, s_moved cam (s_moved rel v) = s_moved obj v) -> tmul (tinverse cam) obj = rel.
Proof.
  intros cam obj rel RG H. apply trans_ext. intros v. specialize (H v). rewrite <- (moved_apply rel), <- (moved_apply cam), <- (moved_apply obj) in H.
  rewrite tapply_tmul, <- H. apply tinverse_apply. auto.
Qed.
(** rel is the pose of the object in the sensor's frame: taking its points on to the world by the sensor's pose gives the object's points *)
Theorem C89_laser : forall (l : lrf R) m cam obj rel ranges, rigid cam -> (forall v, s_moved cam (s_moved rel v) = s_moved obj v) ->
  lrf_render_shape l m cam obj ranges = lrf_render l m rel ranges.
Proof. intros l m cam obj rel ranges RG H. unfold lrf_render_shape. rewrite (relative cam obj rel RG H). reflexivity. Qed.
Theorem C89_camera : forall (c : Depth.cam R) m cam obj rel img cols pm ptr tm, rigid cam -> (forall v, s_moved cam (s_moved rel v) = s_moved obj v) ->
  rasterize2 c m cam obj img cols pm ptr tm = rasterize c m rel img cols pm ptr tm.
Proof. intros c m cam obj rel img cols pm ptr tm RG H. unfold rasterize2. rewrite (relative cam obj rel RG H). reflexivity. Qed.
(** moving sensor and object together changes nothing *)
Theorem C89_common_motion : forall (l : lrf R) (c : Depth.cam R) m g cam obj ranges img cols pm ptr tm, rigid g -> rigid cam ->
  lrf_render_shape l m (tmul g cam) (tmul g obj) ranges = lrf_render_shape l m cam obj ranges /\
  rasterize2 c m (tmul g cam) (tmul g obj) img cols pm ptr tm = rasterize2 c m cam obj img cols pm ptr tm.
Proof.
  intros l c m g cam obj ranges img cols pm ptr tm G CM.
  assert (H : forall v, s_moved (tmul g cam) (s_moved (tmul (tinverse cam) obj) v) = s_moved (tmul g obj) v).
  { intros v. rewrite <- !moved_apply, !tapply_tmul, tapply_inverse by auto. reflexivity. }
  split; [apply C89_laser|apply C89_camera]; auto; apply C02_rigid_closed; auto.
Qed.
Example C89_nonvacuous : exists cam obj rel, rigid cam /\ cam <> tidentity /\ rel <> obj /\ forall v, s_moved cam (s_moved rel v) = s_moved obj v.
Proof.
  exists ex_tr, (tmul ex_tr tidentity), tidentity. split; [apply ex_tr_ok|]. assert (N : ex_tr <> tidentity) by (unfold ex_tr, ex_rot; unmath; intros E; injection E; lra).
  split; auto. split; [rewrite (proj2 (proj2 (C02_monoid ex_tr ex_tr ex_tr))); auto|]. intros v. rewrite <- !moved_apply, tapply_tmul. reflexivity.
Qed.
Print Assumptions C89_laser.
Print Assumptions C89_camera.
Print Assumptions C89_common_motion.
