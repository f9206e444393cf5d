(** * C66, C67, C69: conversions to and from ROS messages and tf2 *)
From Coq Require Import ZArith NArith List Bool Reals Lra Lia.
From Flocq Require Import Core BinarySingleNaN.
From Verif Require Import Num MathTypes Outcome Mesh Depth Ros Spec NumOrd P_F32 P_Tac P_Math P_Rot P_Mesh Props_Mesh Props_Math.
Import ListNotations.
Local Open Scope R_scope.

(** ** C66 *)
Theorem C66_pose_round_trip : forall t : trans3 R, rigid t ->
  msg_pose_ (pose_msg t) = t /\ msg_transform_ (transform_msg t) = t /\
  q_norm2 (msg_quat_ (mpo_orientation (pose_msg t))) = 1 /\
  q_norm2 (msg_quat_ (mt_rotation (transform_msg t))) = 1.
Proof.
  intros [m [x y z]] H. destruct (C06_matrix_to_quaternion m (Q n0 n0 n0 n0) H) as [A B].
  unfold msg_pose_, msg_transform_, pose_msg, transform_msg, msg_mat, mat_msg, quat_msg, msg_quat_, msg_vec, point_msg.
  cbn [mpo_orientation mpo_position mt_rotation mt_translation mq_x mq_y mq_z mq_w mp_x mp_y mp_z tR MathTypes.tt vx vy vz].
  assert (E : forall q : quat R, Q (qx q) (qy q) (qz q) (qw q) = q) by (intros []; reflexivity).
  rewrite !E. unfold msg_quat_. rewrite B. auto.
Qed.
(** a message with any non-zero quaternion becomes a rigid pose that turns by the normalised quaternion: the rotated vector is
    the conjugation by the quaternion; rescaling the quaternion changes nothing *)
Theorem C66_message_meaning : forall (m : msg_pose R), q_norm2 (msg_quat_ (mpo_orientation m)) <> 0 ->
  rigid (msg_pose_ m) /\ MathTypes.tt (msg_pose_ m) = V3 (mp_x (mpo_position m)) (mp_y (mpo_position m)) (mp_z (mpo_position m)) /\
  forall k, k <> 0 -> let q := mpo_orientation m in
    tR (msg_pose_ (MPose (mpo_position m) (MQuat (mq_x q * k) (mq_y q * k) (mq_z q * k) (mq_w q * k)))) = tR (msg_pose_ m).
Proof.
  intros [p q] N. cbn [mpo_orientation mpo_position] in *. split; [|split].
  - exact (C05_set_is_rotation _ N).
  - reflexivity.
  - intros k K. exact (C05_scale_invariant _ k N K).
Qed.
(** message to pose to message: the same orientation, up to the sign of the quaternion *)
Theorem C66_message_round_trip : forall (m : msg_pose R), q_norm2 (msg_quat_ (mpo_orientation m)) = 1 ->
  let m' := pose_msg (msg_pose_ m) in
  mpo_position m' = mpo_position m /\
  (mpo_orientation m' = mpo_orientation m \/
   let q := mpo_orientation m in mpo_orientation m' = MQuat (- mq_x q) (- mq_y q) (- mq_z q) (- mq_w q)).
Proof.
  intros [[x y z] [a b c d]] N m'. split; [reflexivity|]. unfold m', pose_msg, msg_pose_, mat_msg, msg_mat.
  cbn [mpo_orientation mpo_position tR] in *. destruct (C06_quaternion_to_matrix _ (Q n0 n0 n0 n0) N) as [E|E]; rewrite E; [left|right]; reflexivity.
Qed.
(** vectors, quaternions and tf2 values are transferred without change, for every scalar type (bit for bit on doubles) *)
Theorem C66_lossless : forall (T : Type) (NT : Num T) (v : vec3 T) (q : quat T) (m : mat3 T) (t : trans3 T),
  msg_vec (point_msg v) = v /\ msg_quat_ (quat_msg q) = q /\
  vec_of_tf (tf_of_vec v) = v /\ quat_of_tf (tf_of_quat q) = q /\ mat_of_tf (tf_of_mat m) = m /\ trans_of_tf (tf_of_trans t) = t.
Proof.
  intros T NT v q m t. assert (V : forall v : vec3 T, V3 (vx v) (vy v) (vz v) = v) by (intros []; reflexivity).
  assert (M : forall m : mat3 T, mat_of_tf (tf_of_mat m) = m) by (intros []; reflexivity).
  repeat split; [apply V|destruct q; reflexivity|apply V|destruct q; reflexivity|apply M|].
  destruct t as [r o]. unfold trans_of_tf, tf_of_trans. cbn [tf_basis tf_origin tR MathTypes.tt]. rewrite M. f_equal. apply V.
Qed.
(** Point32 has float coordinates: every double up to 2^127 arrives with a relative error of at most 2^-24 (or an absolute
    one of 2^-150 near zero), and a coordinate that is a float arrives exactly *)
Theorem C66_point32 : forall (v : vec3 F64) (c : vec3 F64 -> F64), c = vx \/ c = vy \/ c = vz ->
  is_finite (c v) = true -> Rabs (B2R (c v)) <= bpow radix2 127 ->
  let v' := msg_vec (point32_msg v) in
  is_finite (c v') = true /\
  Rabs (B2R (c v') - B2R (c v)) <= Rabs (B2R (c v)) * bpow radix2 (-24) + bpow radix2 (-150) /\
  (generic_format radix2 (FLT_exp (-149) 24) (B2R (c v)) -> B2R (c v') = B2R (c v)).
Proof.
  intros v c Hc F B v'.
  assert (E : c v' = nf32 (c v)) by (destruct Hc as [-> |[-> | ->]]; reflexivity). rewrite E.
  destruct (nf32_error (c v) F B) as [G H]. split; [exact G|]. split; [exact H|]. intros I.
  destruct (nf32_spec (c v) F) as [_ D].
  { apply Rle_lt_trans with (bpow radix2 127); [apply rnd32_small; auto; lia|apply bpow_lt; lia]. }
  rewrite D. apply round_generic; auto with typeclass_instances.
Qed.
Example C66_nonvacuous : rigid (tmake 1 2 3 (1/2) (1/3) (1/4)) /\
  q_norm2 (msg_quat_ (mpo_orientation (pose_msg (tmake 1 2 3 (1/2) (1/3) (1/4))))) = 1.
Proof.
  assert (H : rigid (tmake 1 2 3 (1/2) (1/3) (1/4))) by apply C03_rpy_is_rotation.
  split; auto. apply C66_pose_round_trip. auto.
Qed.
Example C66_point32_nonvacuous : let x := (nlit 1 10 : F64) in
  is_finite x = true /\ Rabs (B2R x) <= bpow radix2 127 /\ neqb (nf32 x) x = false.
Proof. split; [vm_compute; reflexivity|]. split; [apply bound127; vm_compute; reflexivity|vm_compute; reflexivity]. Qed.
Print Assumptions C66_pose_round_trip.
Print Assumptions C66_message_meaning.
Print Assumptions C66_message_round_trip.
Print Assumptions C66_lossless.
Print Assumptions C66_point32.

(** ** C67 *)
Definition s_msg_soup {T} (g : msg_mesh T) : option (list (vec3 T * vec3 T * vec3 T)) :=
  s_soup (map (fun p => V3 (mp_x p) (mp_y p) (mp_z p)) (mm_vertices g)) (mm_triangles g).
Lemma fold_snoc : forall A B (g : A -> B) l acc, fold_left (fun l x => l ++ [g x]) l acc = acc ++ map g l.
Proof. induction l as [|a r IH]; intros acc; cbn. rewrite app_nil_r; auto. rewrite IH, <- app_assoc. auto. Qed.
Lemma valid_u32 : forall n ts, (N.of_nat n <= 2 ^ 32)%N -> s_valid n (map idx ts) ->
  map (fun t => (u32 (ti1 t), u32 (ti2 t), u32 (ti3 t))) ts = map idx ts.
Proof.
  intros n ts S V. apply map_ext_in. intros [i j k] I. unfold idx. cbn [ti1 ti2 ti3].
  destruct (V i j k) as [A [B C]]; [apply in_map_iff; exists (TI i j k); auto|].
  rewrite !u32_small by lia. auto.
Qed.
(** into an empty message: exactly the mesh *)
Theorem C67_fresh_message_partial : forall (T : Type) (NT : Num T) (m : mesh T) l,
  (N.of_nat (length (m_points m)) <= 2 ^ 32)%N -> soup_of m = Some l ->
  let g := mesh_msg m (MMesh [] []) in
  map (fun p => V3 (mp_x p) (mp_y p) (mp_z p)) (mm_vertices g) = m_points m /\
  mm_triangles g = map idx (m_tris m) /\ s_msg_soup g = Some l.
Proof.
  intros T NT m l S M g. unfold g, s_msg_soup, mesh_msg. cbn [mm_vertices mm_triangles]. rewrite !fold_snoc. cbn [app].
  assert (P : map (fun p => V3 (mp_x p) (mp_y p) (mp_z p)) (map point_msg (m_points m)) = m_points m).
  { rewrite map_map. rewrite <- (map_id (m_points m)) at 2. apply map_ext. intros []. reflexivity. }
  assert (I : map (fun t => (u32 (ti1 t), u32 (ti2 t), u32 (ti3 t))) (m_tris m) = map idx (m_tris m)).
  { apply valid_u32 with (length (m_points m)); auto. apply soup_valid. exists l. exact M. }
  rewrite P, I. auto.
Qed.
(** into a message that already has contents: both lists are appended to; the triangles are those of the mesh only if the old
    message had no vertices *)
Theorem C67_appends : forall (T : Type) (NT : Num T) (m : mesh T) (g : msg_mesh T),
  mm_vertices (mesh_msg m g) = mm_vertices g ++ map point_msg (m_points m) /\
  mm_triangles (mesh_msg m g) = mm_triangles g ++ map (fun t => (u32 (ti1 t), u32 (ti2 t), u32 (ti3 t))) (m_tris m).
Proof. intros. unfold mesh_msg. cbn [mm_vertices mm_triangles]. rewrite !fold_snoc. auto. Qed.
Theorem C67_refuted : exists (m : mesh R) (l : list (vec3 R * vec3 R * vec3 R)) (old : msg_mesh R) l',
  soup_of m = Some l /\ l <> [] /\
  s_msg_soup (mesh_msg m old) = Some l' /\ (forall t, In t l -> ~ In t l').
Proof.
  exists (MkMesh [V3 0 0 1; V3 1 0 1; V3 0 1 1] [TI 0 1 2] 0 0 []), [(V3 0 0 1, V3 1 0 1, V3 0 1 1)],
    (MMesh [MPoint 0 0 0; MPoint 1 0 0; MPoint 0 1 0] []), [(V3 0 0 0, V3 1 0 0, V3 0 1 0)].
  split; [reflexivity|]. split; [discriminate|]. split; [reflexivity|].
  intros t [<-|[]] [E|[]]. injection E. intros. lra.
Qed.
Example C67_nonvacuous : exists m l, mesh_run (mesh_new : mesh F64) (firstn 9 ex_ops) = Ret m /\ soup_of m = Some l /\ length l = 2%nat.
Proof.
  destruct (oret_ex _ (mesh_run (mesh_new : mesh F64) (firstn 9 ex_ops))
    (fun m => match soup_of m with Some l => Nat.eqb (length l) 2 | None => false end)) as [m [M C]]; [vm_compute; reflexivity|].
  exists m. destruct (soup_of m) as [l|]; [|discriminate C]. exists l. apply Nat.eqb_eq in C. auto.
Qed.
Print Assumptions C67_fresh_message_partial.
Print Assumptions C67_appends.
Print Assumptions C67_refuted.

(** ** C69 *)
Lemma s32_small : forall w, (w < 2 ^ 31)%N -> s32 (Z.of_N w) = Z.of_N w.
Proof. intros w H. unfold s32. rewrite Z.mod_small; lia. Qed.
Lemma s32_back : forall w, (w < 2 ^ 32)%N -> Z.to_N (Z.modulo (s32 (Z.of_N w)) 4294967296) = w.
Proof.
  intros w H. unfold s32.
  assert (E : (((Z.of_N w + 2147483648) mod 4294967296 - 2147483648) mod 4294967296 = Z.of_N w mod 4294967296)%Z).
  { rewrite Zminus_mod_idemp_l. f_equal. lia. }
  rewrite E, Z.mod_small by lia. apply N2Z.id.
Qed.
(** a camera built from parameters reports them (for every scalar type, so also bit for bit on doubles) *)
Theorem C69_reports : forall (T : Type) (NT : Num T) (w h : N) (fx fy cx cy tx ty : T), (w < 2 ^ 31)%N -> (h < 2 ^ 31)%N ->
  cam_params (cam_make w h fx fy cx cy tx ty) = Cam (Z.of_N w) (Z.of_N h) fx fy cx cy tx ty.
Proof. intros. unfold cam_params. cbn. rewrite !s32_small by auto. reflexivity. Qed.
(** its message gives the same camera back, whatever the message contained, unless a region of interest was left in it *)
Theorem C69_round_trip_partial : forall (T : Type) (NT : Num T) (w h : N) (fx fy cx cy tx ty : T) (old : msg_cam T),
  (w < 2 ^ 32)%N -> (h < 2 ^ 32)%N -> mc_roix old = 0%N -> mc_roiy old = 0%N ->
  let c := cam_make w h fx fy cx cy tx ty in cam_of_info (cam_msg c old) = c.
Proof.
  intros T NT w h fx fy cx cy tx ty old W H X Y. cbv zeta. unfold cam_msg, cam_of_info, fromCameraInfo.
  cbn [mc_width mc_height mc_p mc_binx mc_biny mc_roix mc_roiy]. rewrite X, Y. cbn. rewrite !s32_back by auto. reflexivity.
Qed.
(** and the message itself is determined by the parameters: projection matrix, intrinsic matrix, size *)
Theorem C69_message : forall (T : Type) (NT : Num T) (w h : N) (fx fy cx cy tx ty : T) (old : msg_cam T),
  (w < 2 ^ 32)%N -> (h < 2 ^ 32)%N ->
  let g := cam_msg (cam_make w h fx fy cx cy tx ty) old in
  mc_width g = w /\ mc_height g = h /\
  mc_p g = [fx; nofZ 0; cx; tx; nofZ 0; fy; cy; ty; nofZ 0; nofZ 0; nofZ 1; nofZ 0] /\
  mc_k g = [fx; nofZ 0; cx; nofZ 0; fy; cy; nofZ 0; nofZ 0; nofZ 1] /\
  mc_r g = [nofZ 1; nofZ 0; nofZ 0; nofZ 0; nofZ 1; nofZ 0; nofZ 0; nofZ 0; nofZ 1] /\ mc_binx g = 1%N /\ mc_biny g = 1%N /\
  length (mc_d g) = 5%nat /\ (forall i, (i < 5)%nat -> nth i (mc_d g) (nofZ 0) = nth i (mc_d old) (nofZ 0)) /\
  cam_msg (cam_make w h fx fy cx cy tx ty) msg_cam_new =
    MCam w h (mc_p g) (mc_k g) (mc_r g) [nofZ 0; nofZ 0; nofZ 0; nofZ 0; nofZ 0] 1 1 0 0 0 0.
Proof.
  intros T NT w h fx fy cx cy tx ty old W H. cbv zeta.
  assert (D : length (resize5 (mc_d old)) = 5%nat /\ forall i, (i < 5)%nat -> nth i (resize5 (mc_d old)) (nofZ 0) = nth i (mc_d old) (nofZ 0)).
  { unfold resize5. generalize (mc_d old) as l. intro l. do 6 (destruct l as [|? l]; [split; [reflexivity|intros i I; do 5 (destruct i as [|i]; [reflexivity|]); lia]|]).
    split; [reflexivity|]. intros i I. do 5 (destruct i as [|i]; [reflexivity|]). lia. }
  destruct D as [D1 D2]. unfold cam_msg at 1 2 3 4 5 6 7 8 9. cbn [mc_width mc_height mc_p mc_k mc_r mc_d mc_binx mc_biny].
  cbn [cam_params c_w c_h]. unfold cam_make, fromCameraInfo, pget. cbn [ph_w ph_h ph_p mc_width mc_height]. cbn [nth]. rewrite !s32_back by auto.
  repeat (split; [reflexivity || assumption|]). unfold cam_msg, cam_params, pget, msg_cam_new. cbn -[s32]. rewrite !s32_back by auto. reflexivity.
Qed.
(** distortion parameters left in the message are kept, although the camera has none: the message then describes another camera *)
Theorem C69_distortion_refuted : exists (w h : N) (fx fy cx cy tx ty : R) (old : msg_cam R),
  let c := cam_make w h fx fy cx cy tx ty in mc_roix old = 0%N /\ mc_roiy old = 0%N /\
  mc_d (cam_msg c old) <> mc_d (cam_msg c msg_cam_new).
Proof.
  exists 640%N, 480%N, 500, 500, 320, 240, 0, 0, (MCam 640 480 [] [] [] [1; 0; 0; 0; 0] 1 1 0 0 0 0). cbv zeta. split; [reflexivity|]. split; [reflexivity|].
  cbn. unR. intro H. injection H as H. lra.
Qed.
(** the message conversion does not reset a region of interest left in the message: then another camera comes back *)
Theorem C69_refuted : exists (w h : N) (fx fy cx cy tx ty : R) (old : msg_cam R),
  let c := cam_make w h fx fy cx cy tx ty in
  c_cx (cam_params (cam_of_info (cam_msg c old))) <> c_cx (cam_params c).
Proof.
  exists 640%N, 480%N, 500, 500, 320, 240, 0, 0, (MCam 640 480 [] [] [] [] 1 1 10 0 100 100). cbn. unR. lra.
Qed.
(** a camera taken from a message with binning is not restored by the round trip either: the scaled focal length is written
    with the full resolution and binning 1, so size and focal length no longer belong together *)
Theorem C69_binning_refuted : exists (g : msg_cam R),
  mc_binx g = 2%N /\ let c := cam_of_info g in let g' := cam_msg c g in
  mc_width g' = mc_width g /\ nth 0 (mc_p g') 0 = nth 0 (mc_p g) 0 / 2 /\ mc_binx g' = 1%N.
Proof.
  exists (MCam 640 480 [500; 0; 320; 0; 0; 500; 240; 0; 0; 0; 1; 0] [] [] [] 2 2 0 0 0 0). cbn. unR. repeat split. lra.
Qed.
(** a camera taken from a message with binning and a region of interest sees the full image shifted by the offset and then
    divided by the binning (0 and 1 mean none); its size stays the one of the message *)
Definition s_scale (b : N) : R := if (b =? 0)%N then 1 else IZR (Z.of_N b).
Theorem C69_window : forall (w h : N) (P K Rc D : list R) (bx by_ rx ry rw rh : N) (p : vec3 R),
  let full := cam_params (cam_of_info (MCam w h P K Rc D 1 1 0 0 0 0)) in
  let c := cam_params (cam_of_info (MCam w h P K Rc D bx by_ rx ry rw rh)) in
  v2x (project3Dto2D c p) = (v2x (project3Dto2D full p) - IZR (Z.of_N rx)) / s_scale bx /\
  v2y (project3Dto2D c p) = (v2y (project3Dto2D full p) - IZR (Z.of_N ry)) / s_scale by_ /\ c_w c = c_w full /\ c_h c = c_h full /\
  full = Cam (s32 (Z.of_N w)) (s32 (Z.of_N h)) (nth 0 P 0) (nth 5 P 0) (nth 2 P 0) (nth 6 P 0) (nth 3 P 0) (nth 7 P 0).
Proof.
  intros w h P K Rc D bx by_ rx ry rw rh [x y z]. cbv zeta. unfold cam_params, cam_of_info, fromCameraInfo, pget, project3Dto2D.
  cbn [mc_width mc_height mc_p mc_binx mc_biny mc_roix mc_roiy ph_w ph_h ph_p c_w c_h c_fx c_fy c_cx c_cy c_tx c_ty vx vy vz v2x v2y].
  cbn [nth]. change (N.ltb 1 1) with false. change (N.eqb 0 0) with true. cbn [andb].
  assert (S : forall b q, (if N.ltb 1 b then nmul q (ndiv n1 (nofZ (Z.of_N b))) else q) = q / s_scale b).
  { intros b q. unfold s_scale. destruct (N.ltb_spec 1 b) as [L|L].
    - replace (N.eqb b 0) with false by (symmetry; apply N.eqb_neq; lia). unR. unfold Rdiv. ring.
    - assert (b = 0 \/ b = 1)%N as [-> | ->] by lia; cbn; field. }
  assert (O : forall a r q, (a = (N.eqb rx 0 && N.eqb ry 0)%bool) -> (a = true -> r = 0%N) -> (if a then q else nsub q (nofZ (Z.of_N r))) = q - IZR (Z.of_N r)).
  { intros a r q _ Z. destruct a; [rewrite (Z eq_refl); cbn; ring|reflexivity]. }
  rewrite !S. rewrite (O _ rx) by (auto; intros B; apply andb_prop in B as [B _]; apply N.eqb_eq, B).
  rewrite (O _ ry) by (auto; intros B; apply andb_prop in B as [_ B]; apply N.eqb_eq, B).
  unR. unfold Rdiv. split; [ring|]. split; [ring|]. repeat split.
Qed.
Example C69_nonvacuous : cam_params (cam_make 640 480 500 501 320 240 1 2) = Cam 640 480 500 501 320 240 1 2.
Proof. apply C69_reports; lia. Qed.
Print Assumptions C69_reports.
Print Assumptions C69_round_trip_partial.
Print Assumptions C69_message.
Print Assumptions C69_distortion_refuted.
Print Assumptions C69_refuted.
Print Assumptions C69_binning_refuted.
Print Assumptions C69_window.
