(** * Properties C01-C10: vectors, matrices, quaternions, transforms (real arithmetic) *)
From Coq Require Import Reals ZArith Lra Psatz.
From Verif Require Import Num MathTypes Spec P_Tac P_Math P_Trig P_Rot.
Local Open Scope R_scope.

(** a non-trivial rotation used to show that hypotheses are satisfiable: rows (3/5,-4/5,0), (4/5,3/5,0), (0,0,1) *)
Definition ex_rot : mat3 R := M3 (3/5) (-4/5) 0 (4/5) (3/5) 0 0 0 1.
Definition ex_tr : trans3 R := T3 ex_rot (V3 1 2 3).
Example ex_rot_ok : rotation ex_rot.
Proof. apply rotation_of_facts; unfold ex_rot; cbn; lra. Qed.
Example ex_tr_ok : rigid ex_tr /\ tapply ex_tr (V3 5 0 1) = V3 4 6 4.
Proof. split. exact ex_rot_ok. unfold ex_tr, ex_rot. unmath. apply V3_eq; lra. Qed.

(** ** C01 *)
Theorem C01_inverse : forall t : trans3 R, rigid t ->
  tmul (tinverse t) t = tidentity /\ tmul t (tinverse t) = tidentity /\
  rigid (tinverse t) /\ tinverse (tinverse t) = t.
Proof. intros t H. exact (conj (tinverse_l t H) (conj (tinverse_r t H) (conj (rigid_inverse t H) (tinverse_involutive t H)))). Qed.
Theorem C01_inverse_apply : forall (t : trans3 R) v, rigid t ->
  tapply (tinverse t) (tapply t v) = v /\ tapply t (tapply (tinverse t) v) = v.
Proof. intros t v H. exact (conj (tinverse_apply t v H) (tapply_inverse t v H)). Qed.
Example C01_nonvacuous : exists t : trans3 R, rigid t /\ t <> tidentity.
Proof. exists ex_tr. split. apply ex_tr_ok. unfold ex_tr, ex_rot. unmath. intros E. injection E. lra. Qed.
Print Assumptions C01_inverse.
Print Assumptions C01_inverse_apply.

(** ** C02 (no hypothesis: every affine transform) *)
Theorem C02_compose_apply : forall (a b : trans3 R) v, tapply (tmul a b) v = tapply a (tapply b v).
Proof. exact tapply_tmul. Qed.
Theorem C02_monoid : forall a b c : trans3 R,
  tmul (tmul a b) c = tmul a (tmul b c) /\ tmul tidentity a = a /\ tmul a tidentity = a.
Proof. intros a b c. exact (conj (tmul_assoc a b c) (conj (tmul_id_l a) (tmul_id_r a))). Qed.
(** tapply is what it should be: matrix times vector plus translation, columns being the images of the axes *)
Theorem C02_apply_meaning : forall (t : trans3 R) (x y z : R),
  tapply t (V3 x y z) =
  V3 (x * vx (col1 (tR t)) + y * vx (col2 (tR t)) + z * vx (col3 (tR t)) + vx (tt t))
     (x * vy (col1 (tR t)) + y * vy (col2 (tR t)) + z * vy (col3 (tR t)) + vy (tt t))
     (x * vz (col1 (tR t)) + y * vz (col2 (tR t)) + z * vz (col3 (tR t)) + vz (tt t)).
Proof. intros; dvec; unmath; unspec; apply V3_eq; ring. Qed.
Theorem C02_identity_apply : forall v : vec3 R, tapply tidentity v = v.
Proof. exact tapply_id. Qed.
(** inverseTimes solves a * x = b *)
Theorem C02_inverseTimes : forall a b : trans3 R, rigid a -> tmul a (tinverseTimes a b) = b.
Proof. intros a b H. unfold tinverseTimes. rewrite <- tmul_assoc, tinverse_r by exact H. apply tmul_id_l. Qed.
Theorem C02_rigid_closed : forall a b : trans3 R, rigid a -> rigid b -> rigid (tmul a b).
Proof. exact rigid_mul. Qed.
Example C02_nonvacuous : tmul ex_tr ex_tr <> ex_tr.
Proof. unfold ex_tr, ex_rot. unmath. intros E. injection E. intros. lra. Qed.
Print Assumptions C02_monoid.
Print Assumptions C02_inverseTimes.

(** ** C03 *)
Theorem C03_rpy_is_rotation : forall r p y : R, rotation (m3rpy r p y).
Proof. exact rotation_rpy. Qed.
Theorem C03_rpy_meaning : forall (r p y : R) v, m3mulv (m3rpy r p y) v = rot_z y (rot_y p (rot_x r v)).
Proof. exact rpy_apply. Qed.
Theorem C03_constructor : forall (x y z r p w : R) v,
  let u := rot_z w (rot_y p (rot_x r v)) in
  tapply (tmake x y z r p w) v = V3 (vx u + x) (vy u + y) (vz u + z).
Proof. intros. unfold tapply, tmake. fields. rewrite rpy_apply. fold u. unfold vadd. unR. reflexivity. Qed.
Example C03_nonvacuous : m3mulv (m3rpy 0 0 (PI/2)) (V3 1 0 0) = V3 0 1 0.
Proof. rewrite rpy_apply. unspec. rewrite cos_PI2, sin_PI2, cos_0, sin_0. apply V3_eq; lra. Qed.
Print Assumptions C03_rpy_is_rotation.
Print Assumptions C03_rpy_meaning.

(** ** C04 *)
Theorem C04_angles_recovered : forall r p y t,
  - PI < r <= PI -> - (PI/2) < p <= PI/2 - 1/1000000000000 -> - PI < y <= PI ->
  tgetRPY (T3 (m3rpy r p y) t) = (r, p, y) /\ tgetYaw (T3 (m3rpy r p y) t) = y.
Proof. intros r p y t Hr Hp Hy. unfold tgetYaw. rewrite (rpy_roundtrip r p y t Hr Hp Hy). auto. Qed.
(** Rebuilding gives the same rotation for every rotation except pitch = -pi/2 (m_zx = 1), and
    except the 1e-12 wide band next to (but excluding) pitch = +pi/2. *)
Theorem C04_rebuild_partial : forall m t r p y, rotation m ->
  tgetRPY (T3 m t) = (r, p, y) ->
  mzx m <> 1 -> (mzx m = -1 \/ p <= PI/2 - 1/1000000000000) ->
  m3rpy r p y = m.
Proof. exact getRPY_rebuild. Qed.
(** At pitch = -pi/2 the singularity is not detected: only one rotation survives. *)
Theorem C04_singular_minus : forall m t r p y, rotation m -> mzx m = 1 ->
  tgetRPY (T3 m t) = (r, p, y) -> (m3rpy r p y = m <-> myy m = 1).
Proof. exact getRPY_singular_minus. Qed.
Theorem C04_rebuild_refuted : exists m t r p y, rotation m /\
  tgetRPY (T3 m t) = (r, p, y) /\ m3rpy r p y <> m.
Proof.
  set (m := M3 0 1 0 0 0 1 1 0 0 : mat3 R).
  assert (H : rotation m) by (apply rotation_of_facts; unfold m; fields; lra).
  destruct (tgetRPY (T3 m (V3 0 0 0))) as [[r p] y] eqn:E.
  exists m, (V3 0 0 0), r, p, y. split; [exact H|]. split; [exact E|].
  intros G. apply (getRPY_singular_minus m _ r p y H eq_refl E) in G. unfold m in G. cbn in G. lra.
Qed.
Example C04_nonvacuous : - PI < 1 <= PI /\ - (PI/2) < 1 <= PI/2 - 1/1000000000000 /\ mzx ex_rot <> 1
   /\ exists r p y, tgetRPY ex_tr = (r,p,y) /\ p <= PI/2 - 1/1000000000000.
Proof.
  pose proof PI2_3_2. repeat split; try lra. unfold ex_rot; cbn; lra.
  unfold tgetRPY, ex_tr, ex_rot. unR. fields.
  assert (E : Ratan2 (-0) (sqrt (0*0+1*1)) = 0).
  { replace (0*0+1*1) with 1 by ring. rewrite sqrt_1. unfold Ratan2. destruct (Rlt_dec 0 1); [|lra].
    replace (-0/1) with 0 by field. apply atan_0. }
  rewrite E. rcase.
  - rewrite Rabs_left1 in Hc by lra. lra.
  - do 3 eexists. split; [reflexivity|]. lra.
Qed.
Print Assumptions C04_angles_recovered.
Print Assumptions C04_rebuild_partial.
Print Assumptions C04_singular_minus.
Print Assumptions C04_rebuild_refuted.

(** ** C05 *)
Theorem C05_set_is_rotation : forall q, q_norm2 q <> 0 -> rotation (m3setRotation q).
Proof. exact setRotation_rotation. Qed.
Theorem C05_scale_invariant : forall q k, q_norm2 q <> 0 -> k <> 0 ->
  m3setRotation (qscale q k) = m3setRotation q.
Proof. exact setRotation_scale. Qed.
Theorem C05_conjugation : forall q v, q_norm2 q <> 0 ->
  let r := hamilton (hamilton q (q_of_vec v)) (q_inv q) in
  qw r = 0 /\ m3mulv (m3setRotation q) v = V3 (qx r) (qy r) (qz r).
Proof. exact setRotation_apply. Qed.
Example C05_nonvacuous : q_norm2 (Q 1 2 3 4) <> 0.
Proof. unfold q_norm2; cbn; lra. Qed.
Print Assumptions C05_set_is_rotation.
Print Assumptions C05_scale_invariant.
Print Assumptions C05_conjugation.

(** ** C06 *)
Theorem C06_matrix_to_quaternion : forall m q0, rotation m ->
  q_norm2 (m3getRotation m q0) = 1 /\ m3setRotation (m3getRotation m q0) = m.
Proof. exact getRotation_correct. Qed.
Theorem C06_quaternion_to_matrix : forall q q0, q_norm2 q = 1 ->
  m3getRotation (m3setRotation q) q0 = q \/ m3getRotation (m3setRotation q) q0 = q_neg q.
Proof. exact getRotation_setRotation. Qed.
Theorem C06_getQuaternion : forall t : trans3 R, rigid t -> m3setRotation (tgetQuaternion t) = tR t.
Proof. intros t H. exact (proj2 (getRotation_correct (tR t) _ H)). Qed.
(** all four branches are reachable by rotations *)
Example C06_nonvacuous : rotation (M3 1 0 0 0 1 0 0 0 1) /\ rotation (M3 1 0 0 0 (-1) 0 0 0 (-1))
  /\ rotation (M3 (-1) 0 0 0 1 0 0 0 (-1)) /\ rotation (M3 (-1) 0 0 0 (-1) 0 0 0 1) /\ q_norm2 (Q (1/2) (1/2) (1/2) (1/2)) = 1.
Proof. repeat split; try (unfold q_norm2; unspec; lra); unspec; lra. Qed.
Print Assumptions C06_matrix_to_quaternion.
Print Assumptions C06_quaternion_to_matrix.

(** ** C07 *)
Theorem C07_normalized_columns : forall m : mat3 R,
  s_norm2 (col1 m) <> 0 -> s_norm2 (col2 m) <> 0 -> s_norm2 (col3 m) <> 0 ->
  let n := m3normalized m in
  s_norm2 (col1 n) = 1 /\ s_norm2 (col2 n) = 1 /\ s_norm2 (col3 n) = 1 /\
  exists a b c, 0 < a /\ 0 < b /\ 0 < c /\
    col1 m = vscale (col1 n) a /\ col2 m = vscale (col2 n) b /\ col3 m = vscale (col3 n) c.
Proof.
  intros m H1 H2 H3 n.
  destruct (vnormalized_unit _ H1) as [U1 [a [Ha Ea]]].
  destruct (vnormalized_unit _ H2) as [U2 [b [Hb Eb]]].
  destruct (vnormalized_unit _ H3) as [U3 [c [Hc Ec]]].
  exact (conj U1 (conj U2 (conj U3 (ex_intro _ a (ex_intro _ b (ex_intro _ c
     (conj Ha (conj Hb (conj Hc (conj Ea (conj Eb Ec))))))))))).
Qed.
Theorem C07_normalize_in_place : forall m : mat3 R, m3normalize m = m3normalized m.
Proof. exact normalize_eq. Qed.
Theorem C07_strip_scale : forall m a b c, rotation m -> 0 < a -> 0 < b -> 0 < c ->
  m3normalized (m3mul m (M3 a 0 0 0 b 0 0 0 c)) = m.
Proof. exact normalize_scaled_rotation. Qed.
Example C07_nonvacuous : s_norm2 (col1 (M3 2 0 0 0 3 0 0 0 4)) <> 0.
Proof. unspec; lra. Qed.
Print Assumptions C07_normalized_columns.
Print Assumptions C07_normalize_in_place.
Print Assumptions C07_strip_scale.

(** ** C08 *)
Theorem C08_isometry : forall t a b, rigid t -> s_dist (tapply t a) (tapply t b) = s_dist a b.
Proof. intros t a b H. unfold s_dist. rewrite rigid_dist2 by exact H. reflexivity. Qed.
Theorem C08_dot_preserved : forall m (a b : vec3 R), rotation m -> vdot (m3mulv m a) (m3mulv m b) = vdot a b.
Proof. exact rot_dot. Qed.
Theorem C08_cross_preserved : forall m (a b : vec3 R), rotation m ->
  vcross (m3mulv m a) (m3mulv m b) = m3mulv m (vcross a b).
Proof. exact rot_cross. Qed.
Theorem C08_length_preserved : forall m (a : vec3 R), rotation m -> vlength (m3mulv m a) = vlength a.
Proof. intros m a H. exact (f_equal sqrt (rot_dot m a a H)). Qed.
Example C08_nonvacuous : rotation ex_rot /\ m3mulv ex_rot (V3 5 0 1) = V3 3 4 1.
Proof. split. exact ex_rot_ok. unfold ex_rot; unmath; apply V3_eq; lra. Qed.
Print Assumptions C08_isometry.
Print Assumptions C08_dot_preserved.
Print Assumptions C08_cross_preserved.
Print Assumptions C08_length_preserved.

(** ** C09 *)
Theorem C09_2d_compose : forall (a b c : trans2 R) v,
  t2apply (t2mul a b) v = t2apply a (t2apply b v) /\
  t2mul (t2mul a b) c = t2mul a (t2mul b c) /\
  t2mul t2identity a = a /\ t2mul a t2identity = a.
Proof. intros a b c v. exact (conj (t2apply_mul a b v) (conj (t2mul_assoc a b c) (t2mul_id a))). Qed.
Theorem C09_2d_inverse : forall t : trans2 R, rotation2 (t2R t) ->
  t2mul (t2inverse t) t = t2identity /\ t2mul t (t2inverse t) = t2identity.
Proof. exact t2inverse_lr. Qed.
Theorem C09_2d_inverseTimes : forall a b : trans2 R, rotation2 (t2R a) -> t2mul a (t2inverseTimes a b) = b.
Proof.
  intros a b H. unfold t2inverseTimes. rewrite <- t2mul_assoc, (proj2 (t2inverse_lr a H)).
  apply t2mul_id.
Qed.
Theorem C09_2d_yaw : forall x y yaw, - PI < yaw <= PI -> t2rotation (t2make x y yaw) = yaw.
Proof. exact t2rotation_rot. Qed.
Theorem C09_2d_yaw_inverse : forall t : trans2 R, rotation2 (t2R t) ->
  t2make (v2x (t2t t)) (v2y (t2t t)) (t2rotation t) = t.
Proof. exact t2make_rotation. Qed.
Theorem C09_2d_constructor : forall (x y yaw : R) v,
  rotation2 (t2rot yaw) /\
  t2apply (t2make x y yaw) v =
    V2 (cos yaw * v2x v - sin yaw * v2y v + x) (sin yaw * v2x v + cos yaw * v2y v + y).
Proof. intros. split. apply t2rot_rotation. dvec. unfold t2make. unmath. apply V2_eq; ring. Qed.
Theorem C09_project : forall (a b : trans2 R) v,
  t2proj3 (t2mul a b) = tmul (t2proj3 a) (t2proj3 b) /\
  t2proj3 (t2inverse a) = tinverse (t2proj3 a) /\
  tapply (t2proj3 a) (v2proj3 v) = v2proj3 (t2apply a v) /\
  tproj2 (t2proj3 a) = a /\ vproj2 (v2proj3 v) = v /\
  (rotation2 (t2R a) <-> rigid (t2proj3 a)) /\ vz (v2proj3 v) = 0.
Proof.
  intros a b v.
  exact (conj (proj3_mul a b) (conj (proj3_inverse a) (conj (proj3_apply a v)
    (conj (proj1 (proj23 a v)) (conj (proj2 (proj23 a v)) (conj (proj3_rigid a) eq_refl)))))).
Qed.
Example C09_nonvacuous : rotation2 (M2 (3/5) (-4/5) (4/5) (3/5)).
Proof. constructor; cbn; lra. Qed.
Print Assumptions C09_2d_compose.
Print Assumptions C09_2d_inverse.
Print Assumptions C09_2d_yaw.
Print Assumptions C09_2d_yaw_inverse.
Print Assumptions C09_project.

(** ** C10 *)
Theorem C10_cross : forall a b : vec3 R,
  s_dot (vcross a b) a = 0 /\ s_dot (vcross a b) b = 0 /\
  s_norm2 (vcross a b) = s_norm2 a * s_norm2 b - s_dot a b ^ 2 /\
  (forall c, s_dot (vcross a b) c = s_det a b c) /\
  vcross b a = vopp (vcross a b).
Proof. intros a b. repeat split; intros; dvec; unmath; unspec; try ring. apply V3_eq; ring. Qed.
Theorem C10_lengths : forall a b : vec3 R,
  vdot a b = s_dot a b /\ vlength2 a = s_norm2 a /\ vlength a = sqrt (s_norm2 a) /\ vlength a * vlength a = vlength2 a
  /\ vlength (vsub a b) = s_dist a b.
Proof.
  intros a b. repeat split; try (dvec; unmath; unspec; ring).
  - exact (vlength_sq a).
  - unfold s_dist. rewrite dist2_sub. reflexivity.
Qed.
Theorem C10_normalized : forall v : vec3 R, s_norm2 v <> 0 ->
  s_norm2 (vnormalized v) = 1 /\ exists k, 0 < k /\ v = vscale (vnormalized v) k.
Proof. exact vnormalized_unit. Qed.
Theorem C10_vector_space : forall (a b c : vec3 R) (s u : R),
  vadd a b = vadd b a /\ vadd (vadd a b) c = vadd a (vadd b c) /\ vsub (vadd a b) b = a /\
  vscale (vadd a b) s = vadd (vscale a s) (vscale b s) /\ vscale (vscale a s) u = vscale a (s * u) /\
  vadd a (vopp a) = V3 0 0 0 /\ (s <> 0 -> vscale (vdivs a s) s = a).
Proof. intros. repeat split; intros; dvec; unmath; apply V3_eq; try ring; field; auto. Qed.
Theorem C10_matrix_linear : forall (m n : mat3 R) (a b : vec3 R) (s : R),
  m3mulv m (vadd a b) = vadd (m3mulv m a) (m3mulv m b) /\
  m3mulv m (vscale a s) = vscale (m3mulv m a) s /\
  m3mulv (m3add m n) a = vadd (m3mulv m a) (m3mulv n a) /\
  m3mulv (m3sub m n) a = vsub (m3mulv m a) (m3mulv n a) /\
  m3mulv (m3scale m s) a = vscale (m3mulv m a) s /\
  m3mulv (m3mul m n) a = m3mulv m (m3mulv n a) /\
  s_dot (m3mulv m a) b = s_dot a (m3mulv (m3transpose m) b) /\
  m3column m 0 = col1 m /\ m3column m 1 = col2 m /\ m3column m 2 = col3 m /\
  m3row m 0 = col1 (m3transpose m) /\ m3row m 1 = col2 (m3transpose m) /\ m3row m 2 = col3 (m3transpose m).
Proof. intros. repeat split; intros; dvec; unmath; unspec; try apply V3_eq; try ring; reflexivity. Qed.
Theorem C10_plane_vectors : forall a b : vec2 R,
  v2dot a b = v2x a * v2x b + v2y a * v2y b /\
  v2cross a b ^ 2 + v2dot a b ^ 2 = v2length2 a * v2length2 b /\
  v2cross b a = - v2cross a b /\ v2length a * v2length a = v2length2 a /\
  (v2length2 a <> 0 -> v2length2 (v2normalized a) = 1).
Proof.
  intros [x y] [x' y']. repeat split; unmath; try ring.
  - apply sqrt_sq. nra.
  - intros H. unfold v2normalized. unmath.
    assert (S : sqrt (x*x+y*y) * sqrt (x*x+y*y) = x*x+y*y) by (apply sqrt_sq; nra).
    assert (sqrt (x*x+y*y) <> 0) by (intro Z; rewrite Z in S; lra).
    transitivity ((x*x+y*y)/(sqrt (x*x+y*y) * sqrt (x*x+y*y))); [field; auto|]. rewrite S. field; auto.
Qed.
Example C10_nonvacuous : s_norm2 (V3 1 2 3) <> 0.
Proof. unspec; lra. Qed.
Print Assumptions C10_cross.
Print Assumptions C10_lengths.
Print Assumptions C10_normalized.
Print Assumptions C10_vector_space.
Print Assumptions C10_matrix_linear.
Print Assumptions C10_plane_vectors.
