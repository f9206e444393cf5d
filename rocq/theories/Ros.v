(** * include/geolib/ros/msg_conversions.h, src/ros/msg_conversions.cpp, include/geolib/ros/tf2_conversions.h,
    and the DepthCamera constructors (src/sensors/DepthCamera.cpp:36-106)

    Message types are records of the fields the code touches (std_msgs headers and the like are left out).
    tf2 and image_geometry are external; the accessors used are modelled by the contracts stated at each definition. *)
From Coq Require Import ZArith NArith List Bool.
From Verif Require Import Num MathTypes Outcome Mesh Depth.
Import ListNotations.

Section Ros.
  Context {T : Type} {NT : Num T}.

  (** geometry_msgs: Point / Point32 / Vector3, Quaternion, Pose, Transform *)
  Record msg_point := MPoint { mp_x : T; mp_y : T; mp_z : T }.
  Record msg_quat := MQuat { mq_x : T; mq_y : T; mq_z : T; mq_w : T }.
  Record msg_pose := MPose { mpo_position : msg_point; mpo_orientation : msg_quat }.
  Record msg_transform := MTransform { mt_translation : msg_point; mt_rotation : msg_quat }.

  (** :26-31 and :50-55 *)
  Definition point_msg (v : vec3 T) : msg_point := MPoint (vx v) (vy v) (vz v).
  (** :38-43; the fields of Point32 are floats *)
  Definition point32_msg (v : vec3 T) : msg_point := MPoint (nf32 (vx v)) (nf32 (vy v)) (nf32 (vz v)).
  (** :62-68 *)
  Definition quat_msg (q : quat T) : msg_quat := MQuat (qx q) (qy q) (qz q) (qw q).
  (** :75-80; the default quaternion is all zeros (math_types.h:398) *)
  Definition mat_msg (r : mat3 T) : msg_quat := quat_msg (m3getRotation r (Q n0 n0 n0 n0)).
  (** :87-91 and :98-102 *)
  Definition pose_msg (t : trans3 T) : msg_pose := MPose (point_msg (MathTypes.tt t)) (mat_msg (tR t)).
  Definition transform_msg (t : trans3 T) : msg_transform := MTransform (point_msg (MathTypes.tt t)) (mat_msg (tR t)).

  (** from ROS: :138-143, :150-155, :162-167 *)
  Definition msg_vec (m : msg_point) : vec3 T := V3 (mp_x m) (mp_y m) (mp_z m).
  (** :174-180 *)
  Definition msg_quat_ (m : msg_quat) : quat T := Q (mq_x m) (mq_y m) (mq_z m) (mq_w m).
  (** :187-192 *)
  Definition msg_mat (m : msg_quat) : mat3 T := m3setRotation (msg_quat_ m).
  (** :199-203 and :210-214 *)
  Definition msg_pose_ (m : msg_pose) : trans3 T := T3 (msg_mat (mpo_orientation m)) (msg_vec (mpo_position m)).
  Definition msg_transform_ (m : msg_transform) : trans3 T := T3 (msg_mat (mt_rotation m)) (msg_vec (mt_translation m)).

  (** ** tf2_conversions.h.  tf2::Vector3 has four doubles, setValue(x, y, z) sets the last one to 0; tf2::Matrix3x3 is three
      rows, setValue takes the elements row by row and operator[] gives a row. *)
  Record tf_vec := TfV { tf_x : T; tf_y : T; tf_z : T; tf_w : T }.
  Record tf_mat := TfM { tf_r0 : tf_vec; tf_r1 : tf_vec; tf_r2 : tf_vec }.
  Record tf_trans := TfT { tf_basis : tf_mat; tf_origin : tf_vec }.
  Definition tf_of_vec (v : vec3 T) : tf_vec := TfV (vx v) (vy v) (vz v) n0.                       (* :23-26 *)
  Definition tf_of_quat (q : quat T) : tf_vec := TfV (qx q) (qy q) (qz q) (qw q).                 (* :28-31 *)
  Definition tf_of_mat (m : mat3 T) : tf_mat :=                                                   (* :33-36 *)
    TfM (TfV (mxx m) (mxy m) (mxz m) n0) (TfV (myx m) (myy m) (myz m) n0) (TfV (mzx m) (mzy m) (mzz m) n0).
  Definition tf_of_trans (t : trans3 T) : tf_trans := TfT (tf_of_mat (tR t)) (tf_of_vec (MathTypes.tt t)).  (* :38-42 *)
  Definition vec_of_tf (v : tf_vec) : vec3 T := V3 (tf_x v) (tf_y v) (tf_z v).                    (* :46-51 *)
  Definition quat_of_tf (v : tf_vec) : quat T := Q (tf_x v) (tf_y v) (tf_z v) (tf_w v).           (* :53-59 *)
  Definition mat_of_tf (m : tf_mat) : mat3 T :=                                                   (* :61-64 *)
    M3 (tf_x (tf_r0 m)) (tf_y (tf_r0 m)) (tf_z (tf_r0 m))
       (tf_x (tf_r1 m)) (tf_y (tf_r1 m)) (tf_z (tf_r1 m))
       (tf_x (tf_r2 m)) (tf_y (tf_r2 m)) (tf_z (tf_r2 m)).
  Definition trans_of_tf (t : tf_trans) : trans3 T := T3 (mat_of_tf (tf_basis t)) (vec_of_tf (tf_origin t)).  (* :66-70 *)

  (** ** Meshes: shape_msgs::Mesh, msg_conversions.h:109-114 and msg_conversions.cpp:14-32.  vertex_indices are uint32. *)
  Record msg_mesh := MMesh { mm_vertices : list msg_point; mm_triangles : list (N * N * N) }.
  Definition mesh_msg (m : mesh T) (msg : msg_mesh) : msg_mesh :=
    MMesh (fold_left (fun l v => l ++ [point_msg v]) (m_points m) (mm_vertices msg))
          (fold_left (fun l t => l ++ [(u32 (ti1 t), u32 (ti2 t), u32 (ti3 t))]) (m_tris m) (mm_triangles msg)).

  (** ** Camera parameters.  sensor_msgs::CameraInfo: size, the 3x4 projection matrix row by row, the intrinsic matrix,
      binning and region of interest offsets and size (all uint32). *)
  Record msg_cam := MCam {
    mc_width : N; mc_height : N;
    mc_p : list T; mc_k : list T; mc_r : list T; mc_d : list T;
    mc_binx : N; mc_biny : N;
    mc_roix : N; mc_roiy : N; mc_roiw : N; mc_roih : N
  }.
  (** a default constructed message is zero *)
  Definition msg_cam_new : msg_cam := MCam 0 0 (repeat n0 12) (repeat n0 9) (repeat n0 9) [] 0 0 0 0 0 0.

  (** image_geometry::PinholeCameraModel: the full resolution and the projection matrix adjusted for binning and region of
      interest (fx = P[0], cx = P[2], Tx = P[3], fy = P[5], cy = P[6], Ty = P[7]) *)
  Record pinhole := Pinhole { ph_w : N; ph_h : N; ph_p : list T }.
  Definition pget (p : pinhole) (i : nat) : T := nth i (ph_p p) n0.
  (** PinholeCameraModel::fromCameraInfo (external, contract): the principal point is moved by the region offset, then the
      rows are divided by the binning; binning 0 means 1 *)
  Definition fromCameraInfo (m : msg_cam) : pinhole :=
    let g i := nth i (mc_p m) n0 in
    let sx z := if N.ltb 1 (mc_binx m) then nmul z (ndiv n1 (nofZ (Z.of_N (mc_binx m)))) else z in
    let sy z := if N.ltb 1 (mc_biny m) then nmul z (ndiv n1 (nofZ (Z.of_N (mc_biny m)))) else z in
    let offx z := if (N.eqb (mc_roix m) 0 && N.eqb (mc_roiy m) 0)%bool then z else nsub z (nofZ (Z.of_N (mc_roix m))) in
    let offy z := if (N.eqb (mc_roix m) 0 && N.eqb (mc_roiy m) 0)%bool then z else nsub z (nofZ (Z.of_N (mc_roiy m))) in
    Pinhole (mc_width m) (mc_height m)
      [sx (g 0%nat); g 1%nat; sx (offx (g 2%nat)); sx (g 3%nat);
       g 4%nat; sy (g 5%nat); sy (offy (g 6%nat)); sy (g 7%nat);
       g 8%nat; g 9%nat; g 10%nat; g 11%nat].

  (** DepthCamera(width, height, fx, fy, cx, cy, tx, ty), DepthCamera.cpp:38-87 *)
  Definition cam_make (width height : N) (fx fy cx cy tx ty : T) : pinhole :=
    fromCameraInfo (MCam width height
      [fx; n0; cx; tx;  n0; fy; cy; ty;  n0; n0; n1; n0]
      [fx; n0; cx;  n0; fy; cy;  n0; n0; n1]
      [n1; n0; n0;  n0; n1; n0;  n0; n0; n1]
      (repeat n0 5) 0 0 0 0 0 0).
  (** DepthCamera(CameraInfo), :94-99 *)
  Definition cam_of_info (m : msg_cam) : pinhole := fromCameraInfo m.

  (** accessors, DepthCamera.h:231-251; fullResolution() is a pair of ints.  Gives the record used by the renderer. *)
  Definition cam_params (p : pinhole) : cam T :=
    Cam (s32 (Z.of_N (ph_w p))) (s32 (Z.of_N (ph_h p)))
        (pget p 0) (pget p 5) (pget p 2) (pget p 6) (pget p 3) (pget p 7).

  (** std::vector::resize(5, 0) on the distortion parameters *)
  Definition resize5 (d : list T) : list T := firstn 5 d ++ repeat n0 (5 - length d).
  (** convert(DepthCamera, CameraInfo), msg_conversions.cpp:34-88; fields that are not assigned keep their values *)
  Definition cam_msg (p : pinhole) (msg : msg_cam) : msg_cam :=
    let c := cam_params p in
    MCam (Z.to_N (Z.modulo (c_w c) 4294967296)) (Z.to_N (Z.modulo (c_h c) 4294967296))
      [c_fx c; n0; c_cx c; c_tx c;  n0; c_fy c; c_cy c; c_ty c;  n0; n0; n1; n0]
      [c_fx c; n0; c_cx c;  n0; c_fy c; c_cy c;  n0; n0; n1]
      [n1; n0; n0;  n0; n1; n0;  n0; n0; n1]
      (resize5 (mc_d msg)) 1 1 (mc_roix msg) (mc_roiy msg) (mc_roiw msg) (mc_roih msg).
End Ros.
Arguments msg_point : clear implicits.
Arguments msg_quat : clear implicits.
Arguments msg_pose : clear implicits.
Arguments msg_transform : clear implicits.
Arguments msg_mesh : clear implicits.
Arguments msg_cam : clear implicits.
Arguments pinhole : clear implicits.
