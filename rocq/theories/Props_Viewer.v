(** * Properties of the viewers: C93, C94 *)
From Coq Require Import String.
From Coq Require Import ZArith NArith List Bool Lia Reals Lra Psatz.
From Flocq Require Import Core.Raux.
From Verif Require Import Num NumOrd MathTypes Outcome Mesh Box Spec P_Tac P_Math P_Trig P_Mesh P_MeshGeo P_BoxMesh SpecLaser P_Laser2 P_Laser4 P_Laser5 Depth P_Depth P_Depth2 P_Depth3 P_Depth4 SpecDepth P_Depth5 P_Depth6 P_Depth7 P_Depth8 Props_Math Props_Mesh Props_Box Props_Depth Import Viewer SpecViewer P_Viewer.
Import ListNotations.
Local Open Scope R_scope.

Lemma rotz_0 : forall v, rot_z 0 v = v.
Proof. intros [x y z]. unfold rot_z. cbn [vx vy vz]. rewrite cos_0, sin_0. apply V3_eq; ring. Qed.
Lemma is_q_iff : forall k, is_q k = true <-> s_key_q k.
Proof. intros k. unfold is_q, s_key_q. rewrite Z.eqb_eq. split; [intros E; exists (k / 256)%Z; pose proof (Z.div_mod k 256 ltac:(lia)); lia|intros [n ->]; rewrite Z.add_comm, Z.mul_comm, Z.mod_add by lia; reflexivity]. Qed.
(** ** C93: showKinect *)
(** the images shown: one for every angle 0, 0.05, 0.1, ... below 6.283, until a key is pressed *)
Theorem C93_frames : forall fuel (m : mesh R) cw ch keys fs, showKinect fuel m cw ch keys = Ret fs ->
  (1 <= length fs <= 126)%nat /\ (forall i, (S i < length fs)%nat -> keys i = (-1)%Z) /\ (length fs = 126%nat \/ keys (length fs - 1)%nat <> (-1)%Z) /\
  forall i fr, nth_error fs i = Some fr -> kinect_frame m (Ztrunc cw) (Ztrunc ch) cw ch (INR i / 20) = Ret fr.
Proof.
  intros fuel m cw ch keys fs H. unfold showKinect in H. change (ntrunc cw) with (Some (Ztrunc cw)) in H. change (ntrunc ch) with (Some (Ztrunc ch)) in H. cbn [or_ub obind] in H.
  set (w := Ztrunc cw) in *. set (h := Ztrunc ch) in *. destruct (_ || _ || _ || _)%bool; [discriminate|]. destruct (_ || _ || _ || _)%bool; [discriminate|].
  assert (ANG : forall i, nofZ (Z.of_nat i) * nlit 5 100 = INR i / 20). { intros i. unfold nlit. cbn [ndiv NumR nofZ]. unR. rewrite INR_IZR_INZ. lra. }
  assert (G : forall fuel i fs, kinect_loop fuel m w h cw ch keys i = Ret fs -> (i <= 126)%nat ->
    (length fs <= 126 - i)%nat /\ ((i < 126)%nat -> (1 <= length fs)%nat) /\ (forall j, (S j < length fs)%nat -> keys (i + j)%nat = (-1)%Z) /\ (length fs = 126 - i \/ keys (i + length fs - 1) <> (-1)%Z)%nat /\
    forall j fr, nth_error fs j = Some fr -> kinect_frame m w h cw ch (INR (i + j) / 20) = Ret fr).
  { clear H fs fuel. induction fuel as [|f IH]; intros i fs H B; [discriminate|]. cbn [kinect_loop] in H. change (nmul (nofZ (Z.of_nat i)) (nlit 5 100)) with (nofZ (Z.of_nat i) * nlit 5 100) in H. rewrite ANG in H.
    assert (LT : nltb (INR i / 20) (nlit 6283 1000) = true <-> (i < 126)%nat).
    { unfold nlit. cbn [nltb ndiv NumR nofZ]. rewrite Rltb_true. change 126%nat with (Z.to_nat 126). rewrite INR_IZR_INZ. split; intros L.
      - assert (IZR (Z.of_nat i) < 126) by lra. apply lt_IZR in H0. lia.
      - assert (Z.of_nat i <= 125)%Z by lia. apply IZR_le in H0. lra. }
    destruct (nltb _ _) eqn:E.
    2:{ injection H as <-. assert (i = 126)%nat by (destruct (Nat.lt_ge_cases i 126) as [C|C]; [apply LT in C; discriminate|lia]). subst i. cbn [length]. split; [lia|]. split; [lia|]. split; [lia|]. split; [left; lia|]. intros [|j] fr N; discriminate. }
    assert (I : (i < 126)%nat) by (apply LT; auto). destruct (kinect_frame _ _ _ _ _ _) as [fr| | |] eqn:F; try discriminate. cbn [obind] in H. destruct (Z.eqb_spec (keys i) (-1)) as [K|K].
    - destruct (kinect_loop _ _ _ _ _ _ _ _) as [rest| | |] eqn:L; try discriminate. cbn [obind] in H. injection H as <-.
      apply IH in L as [A [B1 [C [D E1]]]]; [|lia]. cbn [length]. split; [lia|]. split; [lia|]. split; [|split].
      + intros [|j] J; [rewrite Nat.add_0_r; auto|]. rewrite <- Nat.add_succ_comm. apply C. lia.
      + destruct D as [D|D]; [left; lia|right]. replace (i + S (length rest) - 1)%nat with (S i + length rest - 1)%nat by lia. auto.
      + intros [|j] fr' N; [injection N as <-; rewrite Nat.add_0_r; auto|]. cbn [nth_error] in N. rewrite <- Nat.add_succ_comm. auto.
    - injection H as <-. cbn [length]. split; [lia|]. split; [lia|]. split; [lia|]. split; [right; replace (i + 1 - 1)%nat with i by lia; auto|].
      intros [|[|j]] fr' N; try discriminate. injection N as <-. rewrite Nat.add_0_r. auto. }
  destruct (G fuel 0%nat fs H ltac:(lia)) as [A [B [C [D E]]]]. split; [split; [apply B; lia|lia]|]. split; [auto|]. split; [destruct D; [left; lia|right; auto]|]. exact E.
Qed.

(** what an image shows: the depths, divided by ten, seen by a camera whose focal lengths and centre scale with the canvas, on the object
    turned by 1.57 about the x-axis and by the angle about the y-axis and put half its radius behind the camera *)
Theorem C93_image : forall (m : mesh R) w h cw ch angle fr, kinect_frame m w h cw ch angle = Ret fr ->
  exists pose s, rigid pose /\ (forall p, s_moved pose p = s_kinect_pos (fst (getMaxRadius m)) angle p) /\
    rasterize (Cam w h (s_focal * (cw / 640)) (s_focal * (ch / 480)) (641 / 2 * (cw / 640)) (481 / 2 * (ch / 480)) 0 0) m pose (repeat (repeat 0 (Z.to_nat w)) (Z.to_nat h)) (Z.to_nat w) [] None [] = Ret s /\
    fr = map (map (fun d => d / 10)) (d_img s).
Proof.
  intros m w h cw ch angle fr H. unfold kinect_frame in H. set (r := fst (getMaxRadius m)) in *. set (pose := tmake _ _ _ _ _ _) in H.
  assert (C : viewer_cam w h cw ch = Cam w h (s_focal * (cw / 640)) (s_focal * (ch / 480)) (641 / 2 * (cw / 640)) (481 / 2 * (ch / 480)) 0 0) by (unfold viewer_cam, nlit, s_focal; unR; f_equal; lra).
  rewrite C in H. destruct (rasterize _ _ _ _ _ _ _ _) as [s| | |] eqn:E; try discriminate. cbn [obind] in H. injection H as <-.
  exists pose, s. split; [apply rotation_rpy|]. split; [|split; [exact E|]].
  - intros p. rewrite moved_apply. unfold pose. rewrite C03_constructor. cbv zeta. unfold s_kinect_pos. cbv zeta.
    replace (nlit (-157) 100) with (- (157 / 100)) by (unfold nlit; unR; lra). change (@n0 R NumR) with 0. rewrite rotz_0. destruct (rot_y angle _) as [u1 u2 u3]. cbn [vx vy vz]. unR. apply V3_eq; lra.
  - apply map_ext. intros row. apply map_ext. intros d. unfold nlit. unR. lra.
Qed.
(** canvas sizes that are image sizes *)
Definition s_canvas (cw ch : R) : Prop := 1 <= cw < 2147483648 /\ 1 <= ch < 2147483648.
Lemma trunc_canvas : forall x, 1 <= x < 2147483648 -> (1 <= Ztrunc x < 2147483648)%Z.
Proof.
  intros x [L U]. rewrite Ztrunc_floor by lra. split; [apply Zfloor_lub; auto|]. apply lt_IZR. eapply Rle_lt_trans; [apply Zfloor_lb|auto].
Qed.
Lemma kinect_start : forall fuel (m : mesh R) cw ch keys, s_canvas cw ch -> showKinect fuel m cw ch keys = kinect_loop fuel m (Ztrunc cw) (Ztrunc ch) cw ch keys 0.
Proof.
  intros fuel m cw ch keys [W H]. unfold showKinect. change (ntrunc cw) with (Some (Ztrunc cw)). change (ntrunc ch) with (Some (Ztrunc ch)). cbn [or_ub obind].
  apply trunc_canvas in W. apply trunc_canvas in H. set (w := Ztrunc cw) in *. set (h := Ztrunc ch) in *.
  destruct (Z.ltb_spec w 0); [lia|]. destruct (Z.ltb_spec h 0); [lia|]. destruct (Z.leb_spec 4294967296 w); [lia|]. destruct (Z.leb_spec 4294967296 h); [lia|].
  destruct (Z.eqb_spec w 0); [lia|]. destruct (Z.eqb_spec h 0); [lia|]. destruct (Z.leb_spec 2147483648 w); [lia|]. destruct (Z.leb_spec 2147483648 h); [lia|]. reflexivity.
Qed.
Lemma kinect_all : forall (P : list (list R) -> Prop) (m : mesh R) w h cw ch keys, (forall a, exists fr, kinect_frame m w h cw ch a = Ret fr /\ P fr) ->
  forall fuel i, (i <= 126)%nat -> (127 - i <= fuel)%nat -> exists fs, kinect_loop fuel m w h cw ch keys i = Ret fs /\ forall fr, In fr fs -> P fr.
Proof.
  intros P m w h cw ch keys F. induction fuel as [|f IH]; intros i I L; [lia|]. cbn [kinect_loop]. destruct (nltb _ _) eqn:E; [|exists []; split; auto; intros fr []].
  assert (LT : (i < 126)%nat).
  { unfold nlit in E. cbn [nltb ndiv nmul NumR nofZ] in E. apply Rltb_true in E. assert (IZR (Z.of_nat i) < 126) by lra. apply lt_IZR in H. lia. }
  destruct (F (nmul (nofZ (Z.of_nat i)) (nlit 5 100))) as [fr [FR PF]]. rewrite FR. cbn [obind]. destruct (Z.eqb _ _).
  - destruct (IH (S i) ltac:(lia) ltac:(lia)) as [fs [FS PS]]. rewrite FS. cbn [obind]. exists (fr :: fs). split; auto. intros x [<-|X]; auto.
  - exists [fr]. split; auto. intros x [<-|[]]. auto.
Qed.

(** the camera stands half a radius from the object's origin. If all points at that distance are behind all faces, the camera is
    inside of the object in every frame and the window stays black *)
Theorem C93_blank : forall fuel (m : mesh R) l cw ch keys, soup_of m = Some l -> s_canvas cw ch -> (127 <= fuel)%nat ->
  (forall q a b d, s_norm q = Rabs (fst (getMaxRadius m) / 2) -> In (a, b, d) l -> ~ 0 < s_dot (SpecDepth.s_normal a b d) (s_diff q a)) ->
  exists fs, showKinect fuel m cw ch keys = Ret fs /\ forall fr, In fr fs -> s_blank (Ztrunc cw) (Ztrunc ch) fr.
Proof.
  intros fuel m l cw ch keys SP CV FU BH. rewrite (kinect_start _ _ _ _ _ CV). apply kinect_all; [|lia|lia]. destruct CV as [CW CH]. intros a.
  pose proof (trunc_canvas _ CW) as W. pose proof (trunc_canvas _ CH) as H. set (w := Ztrunc cw) in *. set (h := Ztrunc ch) in *. unfold kinect_frame.
  set (pose := tmake _ _ _ _ _ _). assert (RG : rigid pose) by (apply rotation_rpy). destruct (centre pose RG) as [q [Q NQ]].
  assert (NQ2 : s_norm q = Rabs (fst (getMaxRadius m) / 2)).
  { rewrite NQ. unfold pose, tmake. cbn [MathTypes.tt]. unfold s_norm, s_dot. cbn [vx vy vz]. unR. change (nofZ 2 : R) with 2. rewrite <- sqrt_Rsqr_abs. f_equal. unfold Rsqr. ring. }
  unfold rasterize. rewrite (render_none _ _ l).
  - cbn [obind]. eexists. split; [reflexivity|]. unfold drr_make. cbn [d_img]. apply blank_map; [lia|lia|]. unR. ring.
  - unfold viewer_cam, nlit. cbn [c_fx]. unR. assert (0 < cw) by lra. lra.
  - unfold viewer_cam, nlit. cbn [c_fy]. unR. assert (0 < ch) by lra. lra.
  - auto.
  - intros a0 b0 d0 I. unfold viewer_cam. cbn [c_fx c_fy c_tx c_ty]. change (n0 : R) with 0. rewrite (facing_moved pose a0 b0 d0 q) by auto. intros F. apply (BH q a0 b0 d0 NQ2 I). exact F.
Qed.
(** boxes around the origin none of whose sides is much shorter than the others *)
Theorem C93_box : forall fuel a b c cw ch keys, 0 < a -> 0 < b -> 0 < c -> sqrt (a * a + b * b + c * c) / 2 < Rmin a (Rmin b c) -> s_canvas cw ch -> (127 <= fuel)%nat ->
  exists fs, showKinect fuel (b_mesh (box_make (V3 (- a) (- b) (- c)) (V3 a b c))) cw ch keys = Ret fs /\ forall fr, In fr fs -> s_blank (Ztrunc cw) (Ztrunc ch) fr.
Proof.
  intros fuel a b c cw ch keys A B C RAD CV FU. set (mn := V3 (- a) (- b) (- c)). set (mx := V3 a b c).
  destruct (C28_constructor_partial mn mx ltac:(cbn; lra) ltac:(cbn; lra) ltac:(cbn; lra)) as [_ [_ [_ [l [L [_ [BH _]]]]]]].
  apply (C93_blank fuel _ l); auto. intros q a0 b0 d0 NQ I F.
  assert (RM : fst (getMaxRadius (b_mesh (box_make mn mx))) = sqrt (a * a + b * b + c * c)).
  { rewrite getR_spec. 2:{ unfold box_make. cbn [b_mesh]. rewrite gen_clean, generate_eq. exact (inv_invalidate (clean _ _)). }
    unR. f_equal. unfold box_make. cbn [b_mesh]. rewrite generate_points. change (m_points mesh_new ++ corners8 mn mx) with (corners8 mn mx). destruct (radius_sq (corners8 mn mx)) as [_ [[[E _]|[p [P EP]]] _]]; [discriminate|]. rewrite <- EP.
    unfold s_norm2, s_dot. unfold corners8, mn, mx in P. cbn [vx vy vz In] in P. repeat (destruct P as [<-|P]; [cbn [vx vy vz]; ring|]). destruct P. }
  rewrite RM in NQ. rewrite Rabs_pos_eq in NQ by (pose proof (sqrt_pos (a * a + b * b + c * c)); lra). rewrite <- NQ in RAD.
  assert (Q : forall x, Rabs x <= s_norm q -> - Rmin a (Rmin b c) < x < Rmin a (Rmin b c)) by (intros x X; pose proof (Rle_abs x); pose proof (Rle_abs (- x)); rewrite Rabs_Ropp in *; lra).
  assert (N : forall x, x * x <= s_dot q q -> Rabs x <= s_norm q). { intros x X. unfold s_norm. rewrite <- sqrt_Rsqr_abs. apply sqrt_le_1_alt. exact X. }
  pose proof (Q (vx q) (N (vx q) ltac:(unfold s_dot; nra))) as QX. pose proof (Q (vy q) (N (vy q) ltac:(unfold s_dot; nra))) as QY. pose proof (Q (vz q) (N (vz q) ltac:(unfold s_dot; nra))) as QZ.
  pose proof (Rmin_l a (Rmin b c)). pose proof (Rmin_r a (Rmin b c)). pose proof (Rmin_l b c). pose proof (Rmin_r b c).
  assert (K : s_behind a0 b0 d0 q) by (apply (BH a0 b0 d0 q I); unfold mn, mx; cbn [vx vy vz]; lra).
  unfold s_behind, s_det, s_diff in K. unfold s_dot, SpecDepth.s_normal, s_diff in F. cbn [vx vy vz] in *. lra.
Qed.
(** "showKinect shows the shape" fails for the cube *)
Theorem C93_refuted : exists a : R, 0 < a /\ forall fuel keys, (127 <= fuel)%nat ->
  exists fs, showKinect fuel (b_mesh (box_make (V3 (- a) (- a) (- a)) (V3 a a a))) 640 480 keys = Ret fs /\ forall fr, In fr fs -> s_blank 640 480 fr.
Proof.
  exists 1. split; [lra|]. intros fuel keys FU.
  assert (S : sqrt (1 * 1 + 1 * 1 + 1 * 1) / 2 < Rmin 1 (Rmin 1 1)).
  { rewrite !(Rmin_left 1 1) by lra. assert (sqrt (1 * 1 + 1 * 1 + 1 * 1) < 2); [|lra]. replace 2 with (sqrt (2 * 2)) by (apply sqrt_square; lra). apply sqrt_lt_1_alt. lra. }
  destruct (C93_box fuel 1 1 1 640 480 keys ltac:(lra) ltac:(lra) ltac:(lra) S) as [fs [E B]]; [unfold s_canvas; lra|auto|]. exists fs. split; auto. intros fr I. specialize (B fr I). rewrite !Ztrunc_IZR in B. auto.
Qed.
Print Assumptions C93_frames.
Print Assumptions C93_image.
Print Assumptions C93_blank.
Print Assumptions C93_box.
Print Assumptions C93_refuted.

(** ** C94: show *)
Definition show_pose (r angle : R) : trans3 R := tmul (tinverse (tmake 0 0 0 (157 / 100) 0 (-157 / 100))) (tmake (r * 3) 0 0 0 0 angle).
Lemma show_rigid : forall r angle, rigid (show_pose r angle).
Proof. intros r angle. unfold show_pose. apply rigid_mul; [apply rigid_inverse|]; apply rotation_rpy. Qed.
Lemma rotx_inv : forall a v, rot_x a (rot_x (- a) v) = v.
Proof. intros a [x y z]. pose proof (cs2 a) as C. unfold rot_x. cbn [vx vy vz]. rewrite cos_neg, sin_neg. apply V3_eq; [reflexivity| |]; [transitivity (y * (cos a * cos a) + y * (sin a * sin a))|transitivity (z * (cos a * cos a) + z * (sin a * sin a))]; try ring; rewrite C; ring. Qed.
Lemma rotz_inv : forall a v, rot_z (- a) (rot_z a v) = v.
Proof. intros a [x y z]. pose proof (cs2 a) as C. unfold rot_z. cbn [vx vy vz]. rewrite cos_neg, sin_neg. apply V3_eq; [| |reflexivity]; [transitivity (x * (cos a * cos a) + x * (sin a * sin a))|transitivity (y * (cos a * cos a) + y * (sin a * sin a))]; try ring; rewrite C; ring. Qed.
Lemma roty_0 : forall v, rot_y 0 v = v.
Proof. intros [x y z]. unfold rot_y. cbn [vx vy vz]. rewrite cos_0, sin_0. apply V3_eq; ring. Qed.
Lemma show_pose_pos : forall r angle p, s_moved (show_pose r angle) p = s_show_pos r angle p.
Proof.
  intros r angle p. rewrite moved_apply. unfold show_pose. rewrite tapply_tmul.
  set (q := tapply (tmake (r * 3) 0 0 0 0 angle) p).
  assert (Q : q = V3 (vx (rot_z angle p) + 3 * r) (vy (rot_z angle p)) (vz (rot_z angle p))).
  { unfold q. rewrite C03_constructor. cbv zeta. unfold rot_x, rot_y. rewrite cos_0, sin_0. unfold rot_z. cbn [vx vy vz]. apply V3_eq; ring. }
  unfold s_show_pos. cbv zeta. rewrite <- Q. clear Q. set (cp := tmake 0 0 0 (157 / 100) 0 (-157 / 100)). assert (RG : rigid cp) by apply rotation_rpy.
  rewrite <- (tinverse_apply cp (rot_x (- (157 / 100)) (rot_z (157 / 100) q)) RG). f_equal. unfold cp. rewrite C03_constructor. cbv zeta.
  replace (-157 / 100) with (- (157 / 100)) by lra. rewrite rotx_inv, roty_0, rotz_inv. destruct q as [q1 q2 q3]. cbn [vx vy vz]. apply V3_eq; ring.
Qed.
Definition show_cam : cam R := viewer_cam 640 480 640 480.
Lemma show_cam_eq : show_cam = Cam 640 480 s_focal s_focal (641 / 2) (481 / 2) 0 0.
Proof. unfold show_cam, viewer_cam, nlit, s_focal. unR. f_equal; lra. Qed.
(** what a frame of show is *)
Lemma show_frame_eq : forall (m : mesh R) angle, show_frame m angle =
  obind (rasterize show_cam m (show_pose (fst (getMaxRadius m)) angle) (black 640 480) 640 [] None []) (fun s => Ret (map (map (s_grey (fst (getMaxRadius m)))) (d_img s))).
Proof.
  intros m angle. unfold show_frame, rasterize2. set (r := fst (getMaxRadius m)).
  replace (tmul (tinverse (tmake n0 n0 n0 (nlit 157 100) n0 (nlit (-157) 100))) (tmake (nmul r (nofZ 3)) n0 n0 n0 n0 angle)) with (show_pose r angle) by reflexivity.
  change (viewer_cam 640 480 (nofZ 640) (nofZ 480)) with show_cam. destruct (rasterize _ _ _ _ _ _ _ _) as [s| | |]; cbn [obind]; auto. f_equal. apply map_ext. intros row. apply map_ext. intros d.
  unfold s_grey. unR. unfold Rltb. destruct (Rlt_dec 0 d); auto. f_equal. lra.
Qed.
(** what an image of show shows: grey values of the depths seen of the object three radii in front of the camera *)
Theorem C94_image : forall (m : mesh R) angle fr, show_frame m angle = Ret fr ->
  exists pose s, rigid pose /\ (forall p, s_moved pose p = s_show_pos (fst (getMaxRadius m)) angle p) /\
    rasterize (Cam 640 480 s_focal s_focal (641 / 2) (481 / 2) 0 0) m pose (repeat (repeat 0 640) 480) 640 [] None [] = Ret s /\ fr = map (map (s_grey (fst (getMaxRadius m)))) (d_img s).
Proof.
  intros m angle fr H. rewrite show_frame_eq in H. rewrite show_cam_eq in H. set (r := fst (getMaxRadius m)) in *. destruct (rasterize _ _ _ _ _ _ _ _) as [s| | |] eqn:E; try discriminate. cbn [obind] in H. injection H as <-.
  exists (show_pose r angle), s. split; [apply show_rigid|]. split; [intros; apply show_pose_pos|]. split; [exact E|reflexivity].
Qed.
(** every point of the shape is seen well inside of the image, whatever the angle *)
Theorem C94_view : forall (m : mesh R) ops l angle, mesh_run mesh_new ops = Ret m -> soup_of m = Some l -> let r := fst (getMaxRadius m) in 0 < r ->
  forall a b d p X Y, In (a, b, d) l -> in_triangle a b d p -> s_sees s_focal s_focal (641 / 2) (481 / 2) 0 0 (s_show_pos r angle p) X Y ->
  115 < X < 526 /\ 35 < Y < 446 /\ 199 / 100 * r <= - vz (s_show_pos r angle p) <= 4 * r.
Proof.
  intros m ops l angle M S r RP a b d p X Y I IT [EX EY]. destruct (C16_radius m ops M) as [_ [RT _]]. pose proof (RT l a b d p S I IT) as NP. fold r in NP.
  destruct (show_bounds r angle p ltac:(lra) NP) as [[Z1 Z2] [BX BY]]. set (q := s_show_pos r angle p) in *. assert (ZP : 0 < - vz q) by lra.
  assert (F : 0 < s_focal < 554256 / 1000) by (unfold s_focal; lra).
  assert (G : forall u, Rabs u <= 37 / 100 * - vz q -> - (2051 / 10) <= (s_focal * u + 0) / - vz q <= 2051 / 10).
  { intros u U. pose proof (Rle_abs u). pose proof (Rle_abs (- u)) as U2. rewrite Rabs_Ropp in U2. split.
    - apply Rmult_le_reg_r with (- vz q); auto. unfold Rdiv. rewrite Rmult_assoc, Rinv_l, Rmult_1_r by lra. nra.
    - apply Rmult_le_reg_r with (- vz q); auto. unfold Rdiv. rewrite Rmult_assoc, Rinv_l, Rmult_1_r by lra. nra. }
  pose proof (G (vx q) BX) as GX. pose proof (G (- vy q) ltac:(rewrite Rabs_Ropp; auto)) as GY. rewrite EX, EY. lra.
Qed.
(** every frame is completed; where something is shown, a triangle facing the camera has a point less than a pixel away *)
Theorem C94_frame : forall (m : mesh R) ops l angle, mesh_run mesh_new ops = Ret m -> soup_of m = Some l -> let r := fst (getMaxRadius m) in
  exists fr, show_frame m angle = Ret fr /\ length fr = 480%nat /\
    forall y row x v, nth_error fr y = Some row -> nth_error row x = Some v -> v = 0 \/
      exists a b d p X Y, In (a, b, d) l /\ in_triangle a b d p /\ s_sees s_focal s_focal (641 / 2) (481 / 2) 0 0 (s_show_pos r angle p) X Y /\
        Rabs (X - INR x) < 1 /\ Rabs (Y - INR y) < 1 /\ s_facing s_focal s_focal 0 0 (s_show_pos r angle a) (s_show_pos r angle b) (s_show_pos r angle d).
Proof.
  intros m ops l angle M S r. rewrite show_frame_eq. fold r. rewrite show_cam_eq. set (c := Cam _ _ _ _ _ _ _ _). set (pose := show_pose r angle).
  assert (R0 : 0 <= r). { unfold r. rewrite (proj2 (proj2 (proj2 (C12_radius_fresh _ _ _ m ops M)))). unR. apply sqrt_pos. }
  assert (F : 0 < s_focal) by (unfold s_focal; lra).
  destruct (C77_render c m ops l pose true 640 480 M S (show_rigid r angle) F F) as [ps [PS [SND _]]].
  { intros a b d I q X Y IT Z [EX EY]. destruct (moved_combo _ _ _ _ _ IT) as [p [IP EQ]]. subst q. unfold pose in *. rewrite show_pose_pos in *.
    destruct (Rle_lt_or_eq_dec 0 r R0) as [RP|RE].
    - destruct (C94_view m ops l angle M S RP a b d p X Y I IP) as [[X1 X2] [[Y1 Y2] _]]; [split; auto|]. split; apply Rabs_def1; lra.
    - exfalso. destruct (C16_radius m ops M) as [_ [RT _]]. pose proof (RT l a b d p S I IP) as NP. destruct (show_bounds r angle p R0 NP) as [[Z1 Z2] _]. lra. }
  unfold rasterize. replace (Z.of_nat 640) with 640%Z by reflexivity. assert (LB : length (@black R NumR 640 480) = 480%nat) by (unfold black; rewrite repeat_length; reflexivity). rewrite LB. change (Z.of_nat 480) with 480%Z.
  rewrite (render_pixels_of _ _ _ _ _ _ _ _ _ _ PS).
  assert (RC : rect (@black R NumR 640 480) 640) by (intros row I; apply black_rect in I as ->; rewrite repeat_length; reflexivity).
  destruct (make_ok (@black R NumR 640 480) 640 None [] [] 480 RC) as [OK _]; [intros e []|intros e []|rewrite LB; lia|].
  destruct (pixels_ret ps _ 640 480 OK) as [s' [E OK']]. { intros p I. destruct (SND p I) as [A [B _]]. split; auto. }
  rewrite E. cbn [obind]. eexists. split; [reflexivity|].
  assert (LEN : length (d_img s') = 480%nat).
  { pose proof (pixels_len _ _ _ _ _ E) as LN. rewrite LN. exact LB. }
  split; [rewrite map_length; auto|]. intros y row x v NR NV.
  rewrite nth_error_map in NR. destruct (nth_error (d_img s') y) as [row0|] eqn:NY; [|discriminate]. injection NR as <-. rewrite nth_error_map in NV. destruct (nth_error row0 x) as [v0|] eqn:NX; [|discriminate]. injection NV as <-.
  assert (G' : get2 (d_img s') (Z.of_nat y) (Z.of_nat x) = Ret v0) by (apply get2_inv; rewrite !Nat2Z.id; split; [lia|]; split; [lia|]; eauto).
  destruct (in_dec (fun a b : Z * Z => ltac:(decide equality; apply Z.eq_dec)) (Z.of_nat x, Z.of_nat y) (map (fun p => (px_x p, px_y p)) ps)) as [IN|OUT].
  - right. apply in_map_iff in IN as [p [PE I]]. injection PE as EX EY. destruct (SND p I) as [_ [_ [k [a [b [d [q [X [Y [N [_ [IT [_ [SE [NX1 [NY1 FC]]]]]]]]]]]]]]]].
    destruct (moved_combo _ _ _ _ _ IT) as [p0 [IP EQ]]. subst q. unfold pose in *. rewrite !show_pose_pos in *. rewrite EX in NX1. rewrite EY in NY1. rewrite <- INR_IZR_INZ in NX1, NY1.
    exists a, b, d, p0, X, Y. split; [eapply nth_error_In; eauto|]. repeat (split; [assumption|]). apply FC. reflexivity.
  - left. destruct (C57_untouched ps _ _ (Z.of_nat x) (Z.of_nat y) E) as [SAME _].
    { intros p I EQ. apply OUT. rewrite <- EQ. apply in_map_iff. eauto. }
    rewrite G' in SAME. symmetry in SAME. apply get2_inv in SAME as [_ [_ [r0 [A B]]]]. unfold drr_make in A. cbn [d_img] in A. apply nth_error_In in A. apply black_rect in A as ->. apply nth_error_In in B. apply repeat_spec in B as ->.
    unfold s_grey. destruct (Rlt_dec 0 0); lra.
Qed.
(** shapes of a radius of at most 2.5 cm stay in front of the near plane: the window stays black *)
Theorem C94_small : forall (m : mesh R) ops angle, mesh_run mesh_new ops = Ret m -> fst (getMaxRadius m) <= 1 / 40 -> exists fr, show_frame m angle = Ret fr /\ s_blank 640 480 fr.
Proof.
  intros m ops angle M RS. rewrite show_frame_eq. set (r := fst (getMaxRadius m)) in *. destruct (C16_radius m ops M) as [RP _]. fold r in RP. unfold rasterize.
  rewrite render_near.
  - cbn [obind]. eexists. split; [reflexivity|]. unfold drr_make. cbn [d_img]. apply blank_map; [lia|lia|]. unfold s_grey. destruct (Rlt_dec 0 0); lra.
  - intros p I. rewrite show_pose_pos. assert (NP : s_norm p <= r) by auto. assert (R0 : 0 <= r) by (pose proof (sqrt_pos (s_dot p p)); unfold s_norm in NP; lra).
    destruct (show_bounds r angle p R0 NP) as [[Z1 Z2] _]. lra.
Qed.
(** the images shown: one for every angle 0, 0.07, 0.14, ... until the key q is pressed; nothing else ends the program *)
Lemma show_loop_spec : forall fuel (m : mesh R) keys i angle fs, show_loop fuel m keys i angle = Ret fs ->
  (1 <= length fs)%nat /\ (forall j, (S j < length fs)%nat -> is_q (keys (i + j)%nat) = false) /\ is_q (keys (i + length fs - 1)%nat) = true /\
  forall j fr, nth_error fs j = Some fr -> show_frame m (angle + INR j * (7 / 100)) = Ret fr.
Proof.
  induction fuel as [|f IH]; intros m keys i angle fs H; [discriminate|]. cbn [show_loop] in H. destruct (show_frame m angle) as [fr| | |] eqn:F; try discriminate. cbn [obind] in H.
  destruct (is_q (keys i)) eqn:K.
  - injection H as <-. cbn [length]. split; [lia|]. split; [lia|]. split; [replace (i + 1 - 1)%nat with i by lia; auto|]. intros [|[|j]] fr' N; try discriminate. injection N as <-. cbn [INR]. replace (angle + 0 * (7/100)) with angle by ring. auto.
  - destruct (show_loop _ _ _ _ _) as [rest| | |] eqn:L; try discriminate. cbn [obind] in H. injection H as <-. apply IH in L as [A [B [C D]]]. cbn [length]. split; [lia|]. split; [|split].
    + intros [|j] J; [rewrite Nat.add_0_r; auto|]. rewrite <- Nat.add_succ_comm. apply B. lia.
    + replace (i + S (length rest) - 1)%nat with (S i + length rest - 1)%nat by lia. auto.
    + intros [|j] fr' N; [injection N as <-; cbn [INR]; replace (angle + 0 * (7/100)) with angle by ring; auto|]. cbn [nth_error] in N. apply D in N. rewrite <- N. f_equal. unfold nlit. unR. rewrite S_INR. lra.
Qed.
Lemma show_loop_runs : forall (m : mesh R) keys n, (forall a, exists fr, show_frame m a = Ret fr) -> forall i angle, (forall j, (j < n)%nat -> is_q (keys (i + j)%nat) = false) -> is_q (keys (i + n)%nat) = true ->
  forall fuel, (n < fuel)%nat -> exists fs, show_loop fuel m keys i angle = Ret fs /\ length fs = S n.
Proof.
  intros m keys n F. induction n as [|n IH]; intros i angle NQ Q fuel FU; (destruct fuel as [|fuel]; [lia|]); cbn [show_loop]; destruct (F angle) as [fr ->]; cbn [obind].
  - rewrite Nat.add_0_r in Q. rewrite Q. exists [fr]. auto.
  - pose proof (NQ 0%nat ltac:(lia)) as Q0. rewrite Nat.add_0_r in Q0. rewrite Q0. destruct (IH (S i) (nadd angle (nlit 7 100))) with (fuel := fuel) as [fs [E L]]; [|rewrite Nat.add_succ_comm; auto|lia|].
    + intros j J. rewrite Nat.add_succ_comm. apply NQ. lia.
    + rewrite E. cbn [obind]. exists (fr :: fs). cbn [length]. auto.
Qed.
(** show FILE, own format first, assimp otherwise: it runs, one frame per angle, until q is pressed for the first time (in round n), and exits with 0 *)
Theorem C94_show : forall (own : string -> outcome (option (mesh R))) scene prog file keys n (m : mesh R) ops l, mesh_run mesh_new ops = Ret m -> soup_of m = Some l ->
  own file = Ret (Some m) \/ own file = Ret None /\ readMeshFile file (scene file) (V3 1 1 1) = Ret (Some m) ->
  (forall j, (j < n)%nat -> ~ s_key_q (keys j)) -> s_key_q (keys n) -> forall fuel, (n < fuel)%nat ->
  exists fs, show own scene fuel [prog; file] keys = Ret (0%Z, fs) /\ length fs = S n /\ forall i fr, nth_error fs i = Some fr -> show_frame m (INR i * (7 / 100)) = Ret fr.
Proof.
  intros own scene prog file keys n m ops l M S LD NQ' Q' fuel FU.
  assert (NQ : forall j, (j < n)%nat -> is_q (keys j) = false) by (intros j J; destruct (is_q (keys j)) eqn:E; auto; exfalso; apply (NQ' j J), is_q_iff; auto).
  assert (Q : is_q (keys n) = true) by (apply is_q_iff; auto). unfold show. cbn [length Nat.eqb negb nth].
  assert (E : obind (own file) (fun sh => match sh with Some m => Ret (Some m) | None => readMeshFile file (scene file) (V3 n1 n1 n1) end) = Ret (Some m)) by (destruct LD as [->|[-> RD]]; auto).
  destruct (own file) as [sh| | |]; try discriminate. cbn [obind] in E |- *. rewrite E. cbn [obind].
  destruct (show_loop_runs m keys n) with (i := 0%nat) (angle := n0 : R) (fuel := fuel) as [fs [FS LN]]; auto.
  - intros a. destruct (C94_frame m ops l a M S) as [fr [FR _]]. eauto.
  - rewrite FS. cbn [obind]. exists fs. split; auto. split; auto. intros i fr N. destruct (show_loop_spec _ _ _ _ _ _ FS) as [_ [_ [_ D]]]. apply D in N. unR. rewrite Rplus_0_l in N. auto.
Qed.
Theorem C94_exit : forall (own : string -> outcome (option (mesh R))) scene fuel argv keys code fs, show own scene fuel argv keys = Ret (code, fs) ->
  code = 0%Z /\ fs <> [] /\ List.length argv = 2%nat \/
  code = 1%Z /\ fs = [] /\ (List.length argv <> 2%nat \/ exists prog file, argv = [prog; file] /\ own file = Ret None /\ scene file = None).
Proof.
  intros own scene fuel argv keys code fs H. unfold show in H. destruct (Nat.eqb_spec (List.length argv) 2) as [L|L]; cbn [negb] in H; [|injection H as <- <-; auto].
  destruct argv as [|prog [|file [|x argv]]]; try discriminate. cbn [nth] in H. destruct (own file) as [[m|]| | |] eqn:O; try discriminate; cbn [obind] in H.
  - destruct (show_loop _ _ _ _ _) as [fs'| | |] eqn:F; try discriminate. cbn [obind] in H. injection H as <- <-. left. apply show_loop_spec in F as [A _]. destruct fs'; [cbn in A; lia|]. split; auto. split; [discriminate|auto].
  - destruct (readMeshFile _ _ _) as [[m|]| | |] eqn:RD; try discriminate; cbn [obind] in H.
    + destruct (show_loop _ _ _ _ _) as [fs'| | |] eqn:F; try discriminate. cbn [obind] in H. injection H as <- <-. left. apply show_loop_spec in F as [A _]. destruct fs'; [cbn in A; lia|]. split; auto. split; [discriminate|auto].
    + injection H as <- <-. right. split; auto. split; auto. right. exists prog, file. split; auto. split; auto. unfold readMeshFile in RD. destruct (scene file); auto. exfalso.
      destruct (suffix 3 file); try discriminate. cbn [obind] in RD. destruct (constructMesh _ _ _ _ _ _); discriminate.
Qed.
(** a shape meeting the hypotheses, of radius 2 *)
Example C94_nonvacuous : exists (m : mesh R) ops l, mesh_run mesh_new ops = Ret m /\ soup_of m = Some l /\ l = [(V3 2 0 0, V3 0 1 0, V3 0 0 1)] /\ 2 <= fst (getMaxRadius m).
Proof.
  eexists. exists [OAddPoint (V3 2 0 0); OAddPoint (V3 0 1 0); OAddPoint (V3 0 0 1); OAddTriangle 0 1 2]. eexists. split; [reflexivity|]. split; [reflexivity|]. split; [reflexivity|].
  destruct (C16_radius _ [OAddPoint (V3 2 0 0); OAddPoint (V3 0 1 0); OAddPoint (V3 0 0 1); OAddTriangle 0 1 2] eq_refl) as [RP _]. eapply Rle_trans; [|apply RP; left; reflexivity].
  unfold s_norm, s_dot. cbn [vx vy vz]. replace 2 with (sqrt (2 * 2)) at 1 by (apply sqrt_square; lra). apply sqrt_le_1_alt. lra.
Qed.
(** "show displays every shape it loads" fails: a triangle of 2 cm *)
Theorem C94_small_refuted : exists (m : mesh R) ops l, mesh_run mesh_new ops = Ret m /\ soup_of m = Some l /\ l = [(V3 (1/50) 0 0, V3 0 (1/50) 0, V3 0 0 (1/50))] /\
  forall angle, exists fr, show_frame m angle = Ret fr /\ s_blank 640 480 fr.
Proof.
  set (ops := [OAddPoint (V3 (1/50) 0 0); OAddPoint (V3 0 (1/50) 0); OAddPoint (V3 0 0 (1/50)); OAddTriangle 0 1 2]).
  eexists. exists ops. eexists. split; [reflexivity|]. split; [reflexivity|]. split; [reflexivity|]. intros angle. apply (C94_small _ ops); [reflexivity|].
  destruct (C16_radius _ ops eq_refl) as [_ [_ [_ [AT _]]]]. destruct AT as [p [P E]]; [discriminate|]. rewrite <- E.
  assert (D : s_dot p p = 1/50 * (1/50)) by (unfold s_dot; destruct P as [<-|[<-|[<-|[]]]]; cbn [vx vy vz]; ring). unfold s_norm. rewrite D, sqrt_square by lra. lra.
Qed.
Print Assumptions C94_image.
Print Assumptions C94_view.
Print Assumptions C94_frame.
Print Assumptions C94_small.
Print Assumptions C94_show.
Print Assumptions C94_exit.
Print Assumptions C94_small_refuted.
