(** * Scanning meshes on doubles (C118) *)
From Coq Require Import ZArith NArith List Bool Lia Reals Lra Psatz.
From Flocq Require Import Core BinarySingleNaN.
From Verif Require Import Num MathTypes Outcome Mesh Spec SpecRound SpecQuery Laser SpecLaser SpecLaserF SpecSliceF Libm
  P_Tac P_Math P_Mesh P_Round P_OctF P_Laser4 P_LaserF P_SliceF P_SliceF2 Props_TriF Props_Libm.
Import ListNotations.
Local Open Scope R_scope.
Local Notation fin := (is_finite (prec := 53) (emax := 1024)).

(** ** one triangle: the drawn segment is the slice of a triangle very close to the true one, up to a few rounding errors *)
Theorem C118_slice : forall pose a b c M N h, s_pose N pose -> s_vert M a -> s_vert M b -> s_vert M c -> M + N <= bpow radix2 400 -> eta <= h ->
  s_tall h (vert_z pose a) -> s_tall h (vert_z pose b) -> s_tall h (vert_z pose c) ->
  s_sliced (33 * uro * (M + N) + 3 * eta / h + 2 * eta) (27 * uro * (M + N) + 7 * eta) (s_at pose a) (s_at pose b) (s_at pose c)
    (slice (vert_z pose a) (vert_z pose b) (vert_z pose c) (vert_xy pose a) (vert_xy pose b) (vert_xy pose c)).
Proof. exact slice_F. Qed.
(** ** a triangle whose corners are clear of the plane is sliced exactly when it should be, and the end points are off by the error of the corners times
    the ratio of their distance to their height *)
Theorem C118_exact : forall pose a b c M N h, s_pose N pose -> s_vert M a -> s_vert M b -> s_vert M c -> M + N <= bpow radix2 400 -> 2 * (27 * uro * (M + N) + 7 * eta) <= h ->
  h <= Rabs (vz (s_at pose a)) -> h <= Rabs (vz (s_at pose b)) -> h <= Rabs (vz (s_at pose c)) ->
  match slice (vert_z pose a) (vert_z pose b) (vert_z pose c) (vert_xy pose a) (vert_xy pose b) (vert_xy pose c) with
  | None => ~ s_straddles (s_at pose a) (s_at pose b) (s_at pose c)
  | Some (q1, q2) => s_straddles (s_at pose a) (s_at pose b) (s_at pose c) /\ s_finv2 q1 /\ s_finv2 q2 /\
      let e := 33 * uro * (M + N) + 3 * eta / (h / 2) + 2 * eta + (27 * uro * (M + N) + 7 * eta) * (1 + 6 * (M + N) / h) in
      exists p1 p2, s_slice (s_at pose a) (s_at pose b) (s_at pose c) p1 p2 /\ s_close2 e (s_r2 q1) p1 /\ s_close2 e (s_r2 q2) p2
  end.
Proof. exact slice_exact. Qed.
(** ** the slice does not depend on which corner comes first *)
Theorem C118_rotate : forall (z1 z2 z3 : F64) p1 p2 p3, slice z2 z3 z1 p2 p3 p1 = slice z1 z2 z3 p1 p2 p3.
Proof. intros. unfold slice. destruct (nltb z1 n0), (nltb z2 n0), (nltb z3 n0); cbn [Bool.eqb negb orb]; reflexivity. Qed.
(** ** no cracks: two triangles that share an edge across the plane, run through in opposite directions, get the very same double coordinates for the
    point on that edge, as the end of one segment and the start of the other *)
Theorem C118_watertight : forall (za zb zc zd : F64) (a b c d : vec2 F64), nltb za n0 <> nltb zb n0 ->
  exists q1 q2 r1 r2, slice za zb zc a b c = Some (q1, q2) /\ slice zb za zd b a d = Some (r1, r2) /\ (if nltb za n0 then q1 = r2 else q2 = r1).
Proof.
  intros za zb zc zd a b c d H. unfold slice. destruct (nltb za n0), (nltb zb n0), (nltb zc n0), (nltb zd n0); try (exfalso; apply H; reflexivity); cbn [Bool.eqb negb orb]; do 4 eexists; (split; [reflexivity|]); (split; [reflexivity|]); try reflexivity; apply cut_swap.
Qed.
(** ** a whole mesh: the scan draws such slices of all triangles, in order, or skips the mesh, which is then on one side of the plane or out of range up to rounding *)
Theorem C118_render : forall L (l : lrf F64) mops (m : mesh F64) pose ranges tris rad M N h d, mesh_run mesh_new mops = Ret m ->
  s_soup (m_points m) (map idx (m_tris m)) = Some tris -> s_pose N pose -> M + N <= bpow radix2 400 -> eta <= h -> (forall v, In v (m_points m) -> s_vert M v /\ s_tall h (vert_z pose v)) ->
  s_max_radius (map rv (m_points m)) rad -> bpow radix2 (-100) <= rad <= bpow radix2 99 -> 0 <= d -> s_ortho d (rm (tR pose)) -> s_fin (l_rmax l) ->
  let exact := map (fun '(a, b, c) => (s_at pose a, s_at pose b, s_at pose c)) tris in
  exists qs, s_slicesF (33 * uro * (M + N) + 3 * eta / h + 2 * eta) (27 * uro * (M + N) + 7 * eta) exact qs /\
  (@lrf_render F64 NumF (TrigF L) l m pose ranges = draw_F L l qs (start_F l ranges) \/
   (@lrf_render F64 NumF (TrigF L) l m pose ranges = Ret (start_F l ranges) /\
    s_hidden ((2 * d + 20 * uro) * rad) (B2R (l_rmax l) - (2 * d + 20 * uro) * rad - 8 * uro * s_norm (rv (MathTypes.tt pose))) exact)).
Proof.
  intros L l mops m pose ranges tris rad M N h d RUN S HP H EH HV MR RG D0 OR FX exact.
  destruct (tris_F L l (m_points m) pose (m_tris m) tris M N h HP H EH HV S) as [qs [Q E]]. exists qs. split; [exact Q|].
  assert (NU : N <= bpow radix2 400).
  { destruct MR as [_ [_ [[_ Z]|[v [I _]]]]]; [pose proof (bpow_gt_0 radix2 (-100)); lra|]. apply in_map_iff in I as [v0 [_ I]]. destruct (HV v0 I) as [[_ BV] _]. pose proof (bound_nonneg _ _ BV). lra. }
  destruct (skip_F L l mops m pose ranges tris rad N d RUN (fun v I => proj1 (proj1 (HV v I))) S MR RG HP NU D0 OR FX) as [G|G]; [left; rewrite G; apply E|right; exact G].
Qed.
(** ** the bound on the heights is needed: corners a subnormal height off the plane, on a wall 25 cm ahead; the drawn segment goes through the sensor *)
Definition tny : F64 := @B754_finite 53 1024 false 1 (-1074) eq_refl.
Definition qrt (z : Z) : F64 := ndiv (nofZ z) (nofZ 4).
Definition ty1 : vec2 F64 := V2 (qrt 1) (qrt 0). Definition ty2 : vec2 F64 := V2 (qrt 1) (qrt 1). Definition ty3 : vec2 F64 := V2 (qrt 1) (qrt (-1)).
Lemma qrt1 : B2R (qrt 1) = / 4. Proof. sfval. Qed.
Theorem C118_tiny : exists (z1 z2 z3 : F64) p1 p2 p3, s_fin z1 /\ s_fin z2 /\ s_fin z3 /\
  let corner := fun (p : vec2 F64) (z : F64) => V3 (B2R (v2x p)) (B2R (v2y p)) (B2R z) in let a := corner p1 z1 in let b := corner p2 z2 in let c := corner p3 z3 in
  s_straddles a b c /\ (forall r1 r2, s_slice a b c r1 r2 -> v2x r1 = / 4 /\ v2x r2 = / 4) /\
  exists q1 q2, slice z1 z2 z3 p1 p2 p3 = Some (q1, q2) /\ neqb (v2x q1) n0 = true /\ neqb (v2x q2) n0 = true.
Proof.
  exists (nopp tny), tny, tny, ty1, ty2, ty3. split; [reflexivity|]. split; [reflexivity|]. split; [reflexivity|]. cbv zeta. cbn [v2x v2y ty1 ty2 ty3]. rewrite qrt1.
  split; [|split].
  - unfold s_straddles. cbn [vz]. assert (L1 : Rltb (B2R (nopp tny)) 0 = true) by (rewrite <- sign_R by reflexivity; vm_compute; reflexivity). assert (L2 : Rltb (B2R tny) 0 = false) by (rewrite <- sign_R by reflexivity; vm_compute; reflexivity).
    apply Rltb_true in L1. apply Rltb_false in L2. split; auto.
  - intros r1 r2 [S _].
    assert (K : forall x, (exists t, 0 <= t <= 1 /\ x = s_along r1 r2 t) -> v2x x = / 4).
    { intros x X. apply S in X as [v [[u1 [u2 [u3 [_ [_ [_ [SU ->]]]]]]] [_ <-]]]. cbn [vx v2x]. lra. }
    split; apply K; [exists 0|exists 1]; (split; [lra|]); destruct r1 as [rx ry], r2 as [tx ty]; unfold s_along; cbn [v2x v2y]; f_equal; ring.
  - assert (B : match slice (nopp tny) tny tny ty1 ty2 ty3 with Some (q1, q2) => (neqb (v2x q1) n0 && neqb (v2x q2) n0)%bool | None => false end = true) by (vm_compute; reflexivity).
    destruct (slice (nopp tny) tny tny ty1 ty2 ty3) as [[q1 q2]|]; [|discriminate]. exists q1, q2. apply andb_prop in B as [B1 B2]. auto.
Qed.
(** ** a wall two metres wide in front of the sensor *)
Definition fz (z : Z) : F64 := nofZ z.
Definition wl1 : vec3 F64 := V3 (fz 1) (fz 2) (fz (-2)). Definition wl2 : vec3 F64 := V3 (fz 1) (fz 2) (fz 2). Definition wl3 : vec3 F64 := V3 (fz 1) (fz (-2)) (fz 2).
Definition idp : trans3 F64 := T3 (M3 (fz 1) (fz 0) (fz 0) (fz 0) (fz 1) (fz 0) (fz 0) (fz 0) (fz 1)) (V3 (fz 0) (fz 0) (fz 0)).
Definition wl_ops : list (mesh_op F64) := [OAddPoint wl1; OAddPoint wl2; OAddPoint wl3; OAddTriangle 0 1 2].
Lemma fzR : forall z, (Z.abs z < 2 ^ 53)%Z -> fin (fz z) = true /\ B2R (fz z) = IZR z.
Proof. exact ofZ_R. Qed.
Ltac fzv := rewrite ?(proj2 (fzR 1 eq_refl)), ?(proj2 (fzR 0 eq_refl)), ?(proj2 (fzR 2 eq_refl)), ?(proj2 (fzR (-2) eq_refl)).
Lemma wl_val : rv wl1 = V3 1 2 (-2) /\ rv wl2 = V3 1 2 2 /\ rv wl3 = V3 1 (-2) 2.
Proof. unfold rv, wl1, wl2, wl3. cbn [vx vy vz]. fzv. auto. Qed.
Lemma wl_pose : s_pose 0 idp /\ s_ortho 0 (rm (tR idp)).
Proof.
  assert (RM : rm (tR idp) = M3 1 0 0 0 1 0 0 0 1) by (unfold rm, idp; cbn [tR mxx mxy mxz myx myy myz mzx mzy mzz]; fzv; reflexivity).
  assert (RT : rv (MathTypes.tt idp) = V3 0 0 0) by (unfold rv, idp; cbn [MathTypes.tt vx vy vz]; fzv; reflexivity).
  split.
  - split; [repeat split|]. split; [repeat split|]. rewrite RM, RT. unfold s_boundm, s_bound. cbn [vx vy vz mxx mxy mxz myx myy myz mzx mzy mzz]. rewrite ?Rabs_R0, ?Rabs_R1. repeat split; lra.
  - rewrite RM. unfold s_ortho, s_dot, col1, col2, col3. cbn [vx vy vz mxx mxy mxz myx myy myz mzx mzy mzz].
    replace (1 * 1 + 0 * 0 + 0 * 0 - 1) with 0 by ring. replace (0 * 0 + 1 * 1 + 0 * 0 - 1) with 0 by ring. replace (0 * 0 + 0 * 0 + 1 * 1 - 1) with 0 by ring.
    replace (1 * 0 + 0 * 1 + 0 * 0) with 0 by ring. replace (1 * 0 + 0 * 0 + 0 * 1) with 0 by ring. replace (0 * 0 + 1 * 0 + 0 * 1) with 0 by ring. rewrite Rabs_R0. repeat split; lra.
Qed.
Example C118_nonvacuous : exists (m : mesh F64) tris, mesh_run mesh_new wl_ops = Ret m /\ s_soup (m_points m) (map idx (m_tris m)) = Some tris /\ length tris = 1%nat /\ s_pose 0 idp /\ 2 + 0 <= bpow radix2 400 /\
  eta <= 2 /\ (forall v, In v (m_points m) -> s_vert 2 v /\ s_tall 2 (vert_z idp v) /\ 2 <= Rabs (vz (s_at idp v))) /\ 2 * (27 * uro * (2 + 0) + 7 * eta) <= 2 /\
  s_max_radius (map rv (m_points m)) 3 /\ bpow radix2 (-100) <= 3 <= bpow radix2 99 /\ s_ortho 0 (rm (tR idp)) /\
  s_straddles (s_at idp wl1) (s_at idp wl2) (s_at idp wl3).
Proof.
  destruct wl_val as [E1 [E2 E3]]. destruct wl_pose as [PP PO]. exists (MkMesh [wl1; wl2; wl3] [TI 0 1 2] n0 n0 []), [(wl1, wl2, wl3)]. split; [reflexivity|]. split; [reflexivity|]. split; [reflexivity|]. split; [exact PP|].
  assert (B4 : forall e, (2 <= e)%Z -> 4 <= bpow radix2 e) by (intros e E; change 4 with (bpow radix2 2); apply bpow_le; exact E).
  split. { pose proof (B4 400%Z ltac:(lia)). lra. }
  assert (EU : eta <= / 1024). { change (/ 1024) with (bpow radix2 (-10)). apply eta_le. lia. }
  split; [lra|]. cbn [m_points map].
  assert (AT : forall v x y z, rv v = V3 x y z -> s_at idp v = V3 x y z).
  { intros v x y z E. unfold s_at. rewrite E. unfold SpecRound.s_moved, s_dot, rm, rv, idp. cbn [tR MathTypes.tt vx vy vz mxx mxy mxz myx myy myz mzx mzy mzz]. fzv. apply V3_eq; ring. }
  assert (A1 : Rabs (-2) = 2) by (rewrite Rabs_left by lra; lra). assert (A2 : Rabs 2 = 2) by (apply Rabs_pos_eq; lra). assert (A3 := Rabs_R1).
  assert (Z1 : B2R (vert_z idp wl1) = -2) by sfval. assert (Z2 : B2R (vert_z idp wl2) = 2) by sfval. assert (Z3 : B2R (vert_z idp wl3) = 2) by sfval.
  split.
  { intros v [<-|[<-|[<-|[]]]]; (split; [split; [repeat split|]|]); rewrite ?E1, ?E2, ?E3; unfold s_bound, s_tall; rewrite ?Z1, ?Z2, ?Z3, ?(AT _ _ _ _ E1), ?(AT _ _ _ _ E2), ?(AT _ _ _ _ E3); cbn [vx vy vz]; rewrite ?A1, ?A2, ?A3; repeat split; try lra; right; lra. }
  split. { unfold uro. lra. }
  assert (N3 : forall x y z, x * x + y * y + z * z = 9 -> s_norm (V3 x y z) = 3). { intros x y z E. unfold s_norm, s_dot. cbn [vx vy vz]. rewrite E. replace 9 with (3 * 3) by ring. apply sqrt_square. lra. }
  split. { rewrite E1, E2, E3. split; [lra|]. split; [intros v [<-|[<-|[<-|[]]]]; rewrite N3 by ring; lra|]. right. exists (V3 1 2 (-2)). split; [left; reflexivity|apply N3; ring]. }
  split. { pose proof (B4 99%Z ltac:(lia)). assert (bpow radix2 (-100) <= bpow radix2 0) by (apply bpow_le; lia). change (bpow radix2 0) with 1 in *. lra. }
  split; [exact PO|]. rewrite (AT _ _ _ _ E1), (AT _ _ _ _ E2), (AT _ _ _ _ E3). unfold s_straddles. cbn [vz]. lra.
Qed.
Print Assumptions C118_slice.
Print Assumptions C118_exact.
Print Assumptions C118_rotate.
Print Assumptions C118_watertight.
Print Assumptions C118_render.
Print Assumptions C118_tiny.
