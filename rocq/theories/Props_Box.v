(** * Properties C22-C31: boxes and the bounding boxes of plain shapes *)
From Coq Require Import ZArith NArith List Bool Lia Reals Lra Psatz.
From Verif Require Import Num MathTypes Outcome Mesh Box Spec NumOrd P_Tac P_Math P_Rot P_Mesh P_MeshGeo P_Box P_BoxMesh P_BBox.
Import ListNotations.

(** ** C22: containment, for every scalar type with IEEE-like comparisons *)
Definition s_between {T} {NT : Num T} {O : NumOrd T} (lo x hi : T) : Prop :=
  exists a b c, nkey lo = Some a /\ nkey x = Some b /\ nkey hi = Some c /\ ext_le a b /\ ext_le b c.
Theorem C22_contains : forall (T : Type) (NT : Num T) (O : NumOrd T) (b : box T) (p : vec3 T),
  box_contains b p = true <->
  s_between (vx (b_min b)) (vx p) (vx (b_max b)) /\ s_between (vy (b_min b)) (vy p) (vy (b_max b)) /\
  s_between (vz (b_min b)) (vz p) (vz (b_max b)).
Proof.
  intros T NT O b p. unfold box_contains. rewrite !andb_true_iff.
  assert (H : forall lo x hi : T, nleb lo x = true /\ nleb x hi = true <-> s_between lo x hi).
  { intros lo x hi. rewrite !nleb_key. split.
    - intros [[a [b1 [A [B L]]]] [b2 [c [B' [C L']]]]]. rewrite B in B'. injection B' as <-. exists a, b1, c. auto.
    - intros [a [b1 [c [A [B [C [L L']]]]]]]. split; [exists a, b1|exists b1, c]; auto. }
  rewrite <- !H. tauto.
Qed.
Theorem C22_contains_real : forall (b : box R) (p : vec3 R), box_contains b p = true <-> s_in_box (b_min b) (b_max b) p.
Proof.
  intros b p. unfold box_contains, s_in_box. rewrite !andb_true_iff. cbn [nleb NumR]. rewrite !Rleb_true. tauto.
Qed.
Theorem C22_doubles : forall (b : box F64) (p : vec3 F64), box_contains b p = true <->
  s_between (vx (b_min b)) (vx p) (vx (b_max b)) /\ s_between (vy (b_min b)) (vy p) (vy (b_max b)) /\
  s_between (vz (b_min b)) (vz p) (vz (b_max b)).
Proof. intros. apply C22_contains. Qed.
Definition fz (z : Z) : F64 := nofZ z.
Example C22_nonvacuous :
  box_contains (box_make (V3 (fz (-1)) (fz 0) (fz 2)) (V3 (fz 3) (fz 0) (fz 9))) (V3 (fz 3) (fz 0) (fz 5)) = true /\
  box_contains (box_make (V3 (fz (-1)) (fz 0) (fz 2)) (V3 (fz 3) (fz 0) (fz 9))) (V3 (fz 3) (ndiv (fz 0) (fz 0)) (fz 5)) = false.
Proof. split; vm_compute; reflexivity. Qed.
Print Assumptions C22_contains.
Print Assumptions C22_contains_real.
Print Assumptions C22_doubles.

Local Open Scope R_scope.

Lemma unit_norm : forall d : vec3 R, vnormalized d = s_unit d.
Proof. reflexivity. Qed.

(** ** C23: slab test *)
Theorem C23_ray_box : forall (b : box R) o d t0 t1 d0,
  s_ordered (b_min b) (b_max b) -> s_general_dir d -> t0 < t1 ->
  let inside t := s_in_box (b_min b) (b_max b) (s_ray_at o (s_unit d) t) in
  let (hit, dist) := box_ray b (ray_make o d) t0 t1 d0 in
  (hit = true <-> exists t, t0 < t < t1 /\ inside t) /\
  (hit = true -> inside dist /\ forall t, inside t -> dist <= t).
Proof. intros b o d t0 t1 d0 O D L. exact (ray_box_exact b o d t0 t1 d0 O D L). Qed.
Example C23_nonvacuous :
  let b := box_make (V3 1 1 1) (V3 2 2 2) : box R in
  s_ordered (b_min b) (b_max b) /\ s_general_dir (V3 1 1 1) /\
  s_in_box (b_min b) (b_max b) (s_ray_at (V3 0 0 0) (s_unit (V3 1 1 1)) (3/2 * s_norm (V3 1 1 1))).
Proof.
  cbn zeta. cbn [box_make b_min b_max].
  assert (N : s_norm (V3 1 1 1) = sqrt 3). { unfold s_norm, s_dot. cbn [vx vy vz]. f_equal. ring. }
  assert (P : 1 < sqrt 3). { rewrite <- sqrt_1. apply sqrt_lt_1; lra. }
  assert (Q : sqrt 3 < 2). { rewrite <- (sqrt_square 2) by lra. apply sqrt_lt_1; lra. }
  assert (I : 1/2 < 1 / sqrt 3).
  { unfold Rdiv. rewrite !Rmult_1_l. apply Rinv_lt_contravar; [apply Rmult_lt_0_compat; lra|lra]. }
  split; [unfold s_ordered; cbn [vx vy vz]; lra|]. split.
  - unfold s_general_dir, s_unit. rewrite N. cbn [vx vy vz]. rewrite Rabs_right; lra.
  - unfold s_ray_at, s_unit, s_in_box. rewrite N. cbn [vx vy vz].
    replace (0 + 3/2 * sqrt 3 * (1 / sqrt 3)) with (3/2) by (field; lra). lra.
Qed.
Print Assumptions C23_ray_box.

(** ** C24: rays parallel to a coordinate plane.  The full statement is C23 without [s_general_dir];
    it fails in both directions. *)
Theorem C24_miss_refuted : exists (b : box R) o d t0 t1,
  s_ordered (b_min b) (b_max b) /\ t0 < t1 /\
  (exists t, t0 < t < t1 /\ s_in_box (b_min b) (b_max b) (s_ray_at o (s_unit d) t)) /\
  forall d0, fst (box_ray b (ray_make o d) t0 t1 d0) = false.
Proof.
  exists (box_make (V3 1 (-1) (-1)) (V3 2 1 1)), (V3 0 0 0), (V3 1 0 0), 0, 100. cbn [box_make b_min b_max].
  assert (N : s_norm (V3 1 0 0) = 1). { unfold s_norm, s_dot. cbn [vx vy vz]. replace (1*1+0*0+0*0) with 1 by ring. apply sqrt_1. }
  repeat split; cbn [vx vy vz]; try lra.
  - exists (3/2). split; [lra|]. unfold s_in_box, s_ray_at, s_unit. rewrite N. cbn [vx vy vz]. lra.
  - intros d0. apply (ray_box_parallel (box_make _ _)); [|lra]. intros [_ [B _]]. unfold bignum in B. rewrite unit_norm in B.
    unfold s_unit in B. rewrite N in B. cbn [vx vy vz] in B. replace (0/1) with 0 in B by field. rewrite Rabs_R0 in B. lra.
Qed.
(** with a negative lower limit the test even reports hits that do not exist *)
Theorem C24_false_hit_refuted : exists (b : box R) o d t0 t1,
  s_ordered (b_min b) (b_max b) /\ t0 < t1 /\
  (forall t, ~ s_in_box (b_min b) (b_max b) (s_ray_at o (s_unit d) t)) /\
  forall d0, fst (box_ray b (ray_make o d) t0 t1 d0) = true.
Proof.
  exists (box_make (V3 (-1) (-1) (-1)) (V3 1 1 1)), (V3 0 5 0), (V3 1 0 0), (-1), 100. cbn [box_make b_min b_max].
  assert (N : s_norm (V3 1 0 0) = 1). { unfold s_norm, s_dot. cbn [vx vy vz]. replace (1*1+0*0+0*0) with 1 by ring. apply sqrt_1. }
  assert (U : s_unit (V3 1 0 0) = V3 1 0 0). { unfold s_unit. rewrite N. cbn [vx vy vz]. apply V3_eq; field. }
  repeat split; cbn [vx vy vz]; try lra.
  - intros t [_ [H _]]. unfold s_ray_at in H. rewrite U in H. cbn [vx vy vz] in H. lra.
  - intros d0.
    assert (I1 : inv1 1 = 1). { destruct (inv1_big 1) as [-> _]; [unfold bignum; rewrite Rabs_right; lra|field]. }
    assert (I0 : inv1 0 = 0). { apply inv1_small. unfold bignum. rewrite Rabs_R0. lra. }
    assert (R : ray_make (V3 0 5 0) (V3 1 0 0) = Ray_ (V3 0 5 0) (V3 1 0 0) (V3 1 0 0) false false false).
    { unfold ray_make. rewrite unit_norm, U. cbn [vx vy vz]. rewrite I1, I0. unR.
      assert (Rltb 1 0 = false) as -> by (apply Rltb_false; lra). assert (Rltb 0 0 = false) as -> by (apply Rltb_false; lra). reflexivity. }
    rewrite R. unfold box_ray. cbn [r_o r_inv r_s0 r_s1 r_s2 bnd negb box_make b_min b_max vx vy vz].
    rewrite ?nmax_R, ?nmin_R. cbn [nsub nmul nf32 nltb NumR].
    replace ((-1 - 0) * 1) with (-1) by ring. replace ((1 - 0) * 1) with 1 by ring. rewrite !Rmult_0_r.
    repeat match goal with |- context [Rltb ?a ?b] =>
      first [replace (Rltb a b) with false by (symmetry; apply Rltb_false; lra) | replace (Rltb a b) with true by (symmetry; apply Rltb_true; lra)] end.
    cbn [orb]. unfold Rmax, Rmin. repeat (destruct Rle_dec; try lra).
    repeat match goal with |- context [Rltb ?a ?b] =>
      first [replace (Rltb a b) with false by (symmetry; apply Rltb_false; lra) | replace (Rltb a b) with true by (symmetry; apply Rltb_true; lra)] end.
    reflexivity.
Qed.
(** what does hold: forward queries along such a ray never report a hit, so exactness holds precisely when there is none *)
Theorem C24_forward_partial : forall (b : box R) o d t0 t1 d0, ~ s_general_dir d -> 0 <= t0 ->
  fst (box_ray b (ray_make o d) t0 t1 d0) = false.
Proof. exact ray_box_parallel. Qed.
Example C24_nonvacuous : ~ s_general_dir (V3 1 0 0).
Proof. intros [_ [B _]]. unfold s_unit in B. cbn [vx vy vz] in B. unfold Rdiv in B. rewrite Rmult_0_l, Rabs_R0 in B. lra. Qed.
Print Assumptions C24_miss_refuted.
Print Assumptions C24_false_hit_refuted.
Print Assumptions C24_forward_partial.

(** ** C25: box against box.  Full statement: box_box b o = true <-> the boxes share a point. *)
Definition s_share (b o : box R) : Prop := exists p, s_in_box (b_min b) (b_max b) p /\ s_in_box (b_min o) (b_max o) p.
Theorem C25_partial : forall b o : box R, s_ordered (b_min b) (b_max b) -> s_ordered (b_min o) (b_max o) ->
  vy (b_min b) + vy (b_max b) = vz (b_min b) + vz (b_max b) ->
  (box_box b o = true <-> s_share b o).
Proof.
  intros b o B O E. rewrite box_box_R by auto. unfold s_share. rewrite share_point by auto. rewrite E.
  destruct B as [? [? ?]], O as [? [? ?]]. rewrite half_overlap by auto. tauto.
Qed.
(** what the code decides, for all ordered boxes: x and y intervals overlap, but the third interval is centred at
    the y centre of the first box *)
Theorem C25_actual : forall b o : box R, s_ordered (b_min b) (b_max b) -> s_ordered (b_min o) (b_max o) ->
  box_box b o = true <->
  (vx (b_min b) <= vx (b_max o) /\ vx (b_min o) <= vx (b_max b)) /\
  (vy (b_min b) <= vy (b_max o) /\ vy (b_min o) <= vy (b_max b)) /\
  Rabs ((vy (b_min b) + vy (b_max b))/2 - (vz (b_min o) + vz (b_max o))/2)
    <= (vz (b_max b) - vz (b_min b)) * (5/10) + (vz (b_max o) - vz (b_min o)) * (5/10).
Proof. exact box_box_R. Qed.
Ltac ordt := unfold s_ordered; cbn [box_make b_min b_max vx vy vz]; lra.
Theorem C25_miss_refuted : exists b : box R, s_ordered (b_min b) (b_max b) /\ s_share b b /\ box_box b b = false.
Proof.
  exists (box_make (V3 0 0 9) (V3 1 1 10)). assert (O : s_ordered (b_min (box_make (V3 0 0 9) (V3 1 1 10) : box R)) (b_max (box_make (V3 0 0 9) (V3 1 1 10)))) by ordt.
  split; [exact O|]. split.
  - exists (V3 0 0 9). unfold s_in_box. cbn [box_make b_min b_max vx vy vz]. lra.
  - apply not_true_iff_false. intros H. apply box_box_R in H; auto. destruct H as [_ [_ H]].
    cbn [box_make b_min b_max vx vy vz] in H. unfold Rabs in H. destruct Rcase_abs; lra.
Qed.
Theorem C25_false_hit_refuted : exists b o : box R, s_ordered (b_min b) (b_max b) /\ s_ordered (b_min o) (b_max o) /\
  ~ s_share b o /\ box_box b o = true.
Proof.
  exists (box_make (V3 0 0 9) (V3 1 1 10)), (box_make (V3 0 0 0) (V3 1 1 1)).
  assert (O : s_ordered (b_min (box_make (V3 0 0 9) (V3 1 1 10) : box R)) (b_max (box_make (V3 0 0 9) (V3 1 1 10)))) by ordt.
  assert (O' : s_ordered (b_min (box_make (V3 0 0 0) (V3 1 1 1) : box R)) (b_max (box_make (V3 0 0 0) (V3 1 1 1)))) by ordt.
  split; [exact O|]. split; [exact O'|]. split.
  - intros [p [[_ [_ A]] [_ [_ B]]]]. cbn [box_make b_min b_max vx vy vz] in *. lra.
  - apply box_box_R; auto. unfold overlap1. cbn [box_make b_min b_max vx vy vz]. unfold Rabs. destruct Rcase_abs; lra.
Qed.
Example C25_nonvacuous : exists b o : box R, s_ordered (b_min b) (b_max b) /\ s_ordered (b_min o) (b_max o) /\
  vy (b_min b) + vy (b_max b) = vz (b_min b) + vz (b_max b) /\ s_share b o.
Proof.
  exists (box_make (V3 0 0 0) (V3 1 1 1)), (box_make (V3 1 0 (-3)) (V3 5 1 0)).
  repeat split; cbn [box_make b_min b_max vx vy vz]; try lra. exists (V3 1 0 0). unfold s_in_box. cbn [box_make vx vy vz b_min b_max]. lra.
Qed.
Print Assumptions C25_partial.
Print Assumptions C25_actual.
Print Assumptions C25_miss_refuted.
Print Assumptions C25_false_hit_refuted.

(** ** C26: ball against box *)
Theorem C26_ball : forall (b : box R) p r, s_ordered (b_min b) (b_max b) -> 0 < r ->
  (box_sphere b p r = true <-> exists q, s_in_box (b_min b) (b_max b) q /\ s_dist p q <= r).
Proof.
  intros b p r O H. rewrite box_sphere_R by auto. destruct Rle_dec; [lra|].
  assert (P : forall q, 0 <= s_dist2 p q).
  { intros q. unfold s_dist2. pose proof (pow2_ge_0 (vx p - vx q)). pose proof (pow2_ge_0 (vy p - vy q)). pose proof (pow2_ge_0 (vz p - vz q)). lra. }
  assert (E : forall q, s_dist p q <= r <-> s_dist2 p q <= r * r).
  { intros q. unfold s_dist. split; intros G.
    - rewrite <- (sqrt_sqrt (s_dist2 p q)) by auto. apply Rmult_le_compat; auto using sqrt_pos.
    - rewrite <- (sqrt_square r) by lra. apply sqrt_le_1_alt. auto. }
  split; intros [q [Q1 Q2]]; exists q; split; auto; apply E; auto.
Qed.
Theorem C26_point : forall (b : box R) p r, s_ordered (b_min b) (b_max b) -> r <= 0 ->
  (box_sphere b p r = true <-> s_in_box (b_min b) (b_max b) p).
Proof. intros b p r O H. rewrite box_sphere_R by auto. destruct Rle_dec; [tauto|lra]. Qed.
Example C26_nonvacuous : let b := box_make (V3 0 0 0) (V3 1 2 3) : box R in s_ordered (b_min b) (b_max b) /\
  (exists q, s_in_box (b_min b) (b_max b) q /\ s_dist (V3 4 0 0) q <= 3) /\ ~ s_in_box (b_min b) (b_max b) (V3 4 0 0).
Proof.
  cbn zeta. cbn [box_make b_min b_max]. split; [ordt|]. split.
  - exists (V3 1 0 0). unfold s_in_box, s_dist, s_dist2. cbn [vx vy vz]. split; [lra|].
    replace ((4-1)^2 + (0-0)^2 + (0-0)^2) with (3*3) by ring. rewrite sqrt_square; lra.
  - unfold s_in_box. cbn [vx vy vz]. lra.
Qed.
Print Assumptions C26_ball.
Print Assumptions C26_point.

(** ** C27: enclose, for every history of constructions and enclose calls, every affine pose *)
Theorem C27_enclose : forall (b o : box R) (pose : trans3 R), box_hist s_ordered b -> box_hist s_ordered o ->
  let b' := box_enclose b o pose in
  (forall q, s_in_box (b_min b) (b_max b) q -> s_in_box (b_min b') (b_max b') q) /\
  (forall q, s_in_box (b_min o) (b_max o) q -> s_in_box (b_min b') (b_max b') (tapply pose q)) /\
  (forall lo hi,
     (forall q, s_in_box (b_min b) (b_max b) q -> s_in_box lo hi q) ->
     (forall q, s_in_box (b_min o) (b_max o) q -> s_in_box lo hi (tapply pose q)) ->
     forall q, s_in_box (b_min b') (b_max b') q -> s_in_box lo hi q).
Proof. intros b o pose B O. apply (enclose_spec b o pose); apply hist_inv; auto. Qed.
Theorem C27_ordered : forall b : box R, box_hist s_ordered b -> s_ordered (b_min b) (b_max b).
Proof. intros b B. apply hist_inv, B. Qed.
Example C27_nonvacuous : exists b o : box R, box_hist s_ordered b /\ box_hist s_ordered o /\
  s_in_box (b_min o) (b_max o) (V3 7 7 7) /\ ~ s_in_box (b_min b) (b_max b) (V3 7 7 7).
Proof.
  set (u := box_make (V3 0 0 0) (V3 1 1 1) : box R). set (w := box_make (V3 2 2 2) (V3 9 9 9) : box R).
  assert (U : box_hist s_ordered u) by (constructor; ordt). assert (W : box_hist s_ordered w) by (constructor; ordt).
  exists u, (box_enclose u w tidentity). split; [auto|]. split; [constructor; auto|]. split.
  - destruct (C27_enclose u w tidentity U W) as [_ [H _]].
    replace (V3 7 7 7) with (tapply tidentity (V3 7 7 7) : vec3 R) by (unmath; apply V3_eq; ring).
    apply H. unfold s_in_box, w. cbn [box_make b_min b_max vx vy vz]. lra.
  - unfold s_in_box, u. cbn [box_make b_min b_max vx vy vz]. lra.
Qed.
Print Assumptions C27_enclose.
Print Assumptions C27_ordered.

(** ** C28: the mesh of a box *)
Definition bsoup (b : box R) := s_soup (m_points (b_mesh b)) (map idx (m_tris (b_mesh b))).
Theorem C28_constructor_partial : forall mn mx : vec3 R, vx mn < vx mx -> vy mn < vy mx -> vz mn < vz mx ->
  let b := box_make mn mx in
  length (m_points (b_mesh b)) = 8%nat /\ length (m_tris (b_mesh b)) = 12%nat /\
  s_closed_surface (map idx (m_tris (b_mesh b))) /\
  exists l, bsoup b = Some l /\
    (forall p, on_boundary mn mx p <-> exists a b c, In (a, b, c) l /\ in_triangle a b c p) /\
    (forall a b c q, In (a, b, c) l -> vx mn < vx q < vx mx -> vy mn < vy q < vy mx -> vz mn < vz q < vz mx -> s_behind a b c q) /\
    s_volume6 l = 6 * ((vx mx - vx mn) * (vy mx - vy mn) * (vz mx - vz mn)).
Proof.
  intros mn mx X Y Z b. unfold b, bsoup. rewrite <- (map_length idx), box_make_tris, box_make_points.
  split; [reflexivity|]. split; [reflexivity|]. split; [exact box_tris_closed|].
  destruct (box_soup mn mx) as [l [L _]]. exists l. split; auto. split; [intros p; apply box_surface; auto|].
  split; [intros; eapply box_outward; eauto|apply box_volume; auto].
Qed.
(** after enclose the old triangles stay: the mesh is no longer the surface of the box *)
Theorem C28_enclose_refuted : exists b o : box R, box_hist s_ordered b /\ box_hist s_ordered o /\
  let b' := box_enclose b o tidentity in
  length (m_tris (b_mesh b')) = 24%nat /\
  exists l p, bsoup b' = Some l /\ (exists a b c, In (a, b, c) l /\ in_triangle a b c p) /\
    ~ on_boundary (b_min b') (b_max b') p.
Proof.
  set (u := box_make (V3 0 0 0) (V3 1 1 1) : box R). set (w := box_make (V3 (-1) (-1) (-1)) (V3 2 2 2) : box R).
  assert (U : box_hist s_ordered u) by (constructor; ordt). assert (W : box_hist s_ordered w) by (constructor; ordt).
  exists u, w. split; [auto|]. split; [auto|]. intros b'.
  destruct (C27_enclose u w tidentity U W) as [H1 [H2 _]]. fold b' in H1, H2.
  assert (MU : m_points (b_mesh u) = corners8 (V3 0 0 0) (V3 1 1 1)) by apply box_make_points.
  assert (TU : map idx (m_tris (b_mesh u)) = box_tris) by apply box_make_tris.
  assert (PT : m_points (b_mesh b') = corners8 (V3 0 0 0) (V3 1 1 1) ++ corners8 (b_min b') (b_max b')).
  { unfold b', box_enclose. destruct (fold_left _ _ _) as [mn mx]. cbn [b_mesh b_min b_max]. rewrite generate_points, MU. reflexivity. }
  assert (TT : map idx (m_tris (b_mesh b')) = box_tris ++ map (fun '(i, j, k) => (8 + i, 8 + j, 8 + k)%N) box_tris).
  { unfold b', box_enclose. destruct (fold_left _ _ _) as [mn mx]. cbn [b_mesh]. rewrite generate_tris.
    - rewrite TU, MU. reflexivity.
    - rewrite MU. cbn. lia. }
  split; [rewrite <- (map_length idx), TT; reflexivity|].
  unfold bsoup. rewrite PT, TT. eexists. exists (V3 0 0 0). split; [reflexivity|]. split.
  - do 3 eexists. split; [left; reflexivity|]. exists 0, 1, 0. repeat split; try lra. apply V3_eq; cbn [vx vy vz]; ring.
  - assert (A : s_in_box (b_min b') (b_max b') (V3 (-1) (-1) (-1))).
    { replace (V3 (-1) (-1) (-1)) with (tapply tidentity (V3 (-1) (-1) (-1)) : vec3 R) by (unmath; apply V3_eq; ring).
      apply H2. unfold s_in_box, w. cbn [box_make b_min b_max vx vy vz]. lra. }
    assert (B : s_in_box (b_min b') (b_max b') (V3 2 2 2)).
    { replace (V3 2 2 2) with (tapply tidentity (V3 2 2 2) : vec3 R) by (unmath; apply V3_eq; ring).
      apply H2. unfold s_in_box, w. cbn [box_make b_min b_max vx vy vz]. lra. }
    unfold s_in_box in A, B. cbn [vx vy vz] in A, B. intros [_ C]. cbn [vx vy vz] in C. lra.
Qed.
(** still true after any history: the mesh points stay inside the bounds and include all eight corners, so the
    vertex set always has exactly the box as its bounding box *)
Theorem C28_history_partial : forall b : box R, box_hist s_ordered b ->
  (forall p, In p (m_points (b_mesh b)) -> s_in_box (b_min b) (b_max b) p) /\
  (forall x y z, (x = vx (b_min b) \/ x = vx (b_max b)) -> (y = vy (b_min b) \/ y = vy (b_max b)) ->
     (z = vz (b_min b) \/ z = vz (b_max b)) -> In (V3 x y z) (m_points (b_mesh b))).
Proof.
  intros b B. destruct (hist_inv b B) as [_ I C]. split; auto.
  intros x y z [-> | ->] [-> | ->] [-> | ->]; apply C; cbn [corners8 In]; tauto.
Qed.
Example C28_nonvacuous : exists b : box R, box_hist s_ordered b /\ vx (b_min b) < vx (b_max b) /\
  vy (b_min b) < vy (b_max b) /\ vz (b_min b) < vz (b_max b).
Proof. exists (box_make (V3 0 0 0) (V3 1 2 3)). split; [constructor; ordt|]. cbn [box_make b_min b_max vx vy vz]. lra. Qed.
Print Assumptions C28_constructor_partial.
Print Assumptions C28_enclose_refuted.
Print Assumptions C28_history_partial.

(** ** C29: maximum radius of a box.  Full statement: the bound below without the dominance condition. *)
Theorem C29_attained : forall b : box R, s_ordered (b_min b) (b_max b) ->
  exists q, s_in_box (b_min b) (b_max b) q /\ s_norm q = box_maxRadius b.
Proof. intros b O. apply box_radius, O. Qed.
(** exactly the boxes one of whose two extreme corners dominates the other in every coordinate are measured correctly *)
Theorem C29_bound_partial : forall b : box R, s_ordered (b_min b) (b_max b) ->
  ((forall q, s_in_box (b_min b) (b_max b) q -> s_norm q <= box_maxRadius b) <-> dominated (b_min b) (b_max b)).
Proof. intros b O. apply box_radius, O. Qed.
Theorem C29_refuted : exists (b : box R) q, s_ordered (b_min b) (b_max b) /\ s_in_box (b_min b) (b_max b) q /\
  box_maxRadius b < s_norm q.
Proof.
  exists (box_make (V3 (-2) (-1) (-1)) (V3 1 2 1)), (V3 (-2) 2 1). split; [ordt|]. cbn [box_make b_min b_max]. split.
  - unfold s_in_box. cbn [vx vy vz]. lra.
  - unfold box_maxRadius. cbn [box_make b_min b_max]. rewrite nmax_R. unfold vlength, s_norm, s_dot. unR. cbn [box_make b_min b_max vx vy vz].
    unfold Rmax. destruct Rle_dec; apply sqrt_lt_1; lra.
Qed.
Example C29_nonvacuous : dominated (V3 (-1) (-1) 0) (V3 2 1 3) /\ s_ordered (V3 (-1) (-1) 0) (V3 2 1 3).
Proof. split; [|ordt]. left. cbn [vx vy vz]. unfold Rabs. repeat destruct Rcase_abs; lra. Qed.
Print Assumptions C29_attained.
Print Assumptions C29_bound_partial.
Print Assumptions C29_refuted.

(** ** C30: bounding box of a point set, every scalar type with IEEE-like comparisons *)
Section C30.
  Context {T : Type} {NT : Num T} {O : NumOrd T}.
  (** no coordinate is NaN *)
  Definition s_numeric (p : vec3 T) : Prop := is_num (vx p) /\ is_num (vy p) /\ is_num (vz p).
  Definition s_within (h : R) (p : vec3 T) : Prop := within h (vx p) /\ within h (vy p) /\ within h (vz p).
End C30.
Lemma isnum_num : forall {T} {NT : Num T} {O : NumOrd T} (x : T), is_num x -> isnum x.
Proof. intros T NT O x H. unfold is_num in H. destruct (nkey x) as [k|] eqn:E; [exists k; auto|congruence]. Qed.
Theorem C30_contains : forall (T : Type) (NT : Num T) (O : NumOrd T) (s : shape T) (m : mesh T) p,
  s_bbv s = false -> (forall q, In q (m_points m) -> s_numeric q) -> In p (m_points m) ->
  box_contains (fst (shape_bbox s m)) p = true.
Proof.
  intros T NT O s m p V N P. unfold shape_bbox. rewrite V. cbn [fst]. unfold bb_of_points, bb_init.
  rewrite bb_axes. cbn [s_bbmin s_bbmax vx vy vz]. apply (proj2 (C22_contains T NT O _ _)). cbn [box_make b_min b_max vx vy vz].
  assert (H9 : (Z.abs 1000000000 <= 2^53)%Z) by (cbn; lia). assert (H9' : (Z.abs (-1000000000) <= 2^53)%Z) by (cbn; lia).
  assert (A : forall f : vec3 T -> T, (forall q, s_numeric q -> is_num (f q)) ->
    s_between (fmin (map f (m_points m)) (nofZ 1000000000)) (f p) (fmax (map f (m_points m)) (nofZ (-1000000000)))).
  { intros f F.
    assert (M : forall x, In x (map f (m_points m)) -> isnum x).
    { intros x X. apply in_map_iff in X. destruct X as [q [<- Q]]. apply isnum_num. auto. }
    destruct (fmin_spec _ _ _ (nofZ_key _ H9) M) as [k [K1 [_ [K2 _]]]].
    destruct (fmax_spec _ _ _ (nofZ_key _ H9') M) as [k' [K1' [_ [K2' _]]]].
    destruct (M (f p)) as [kp KP]; [apply in_map; auto|].
    exists k, kp, k'. repeat split; auto; [apply (K2 (f p))|apply (K2' (f p))]; auto; apply in_map; auto. }
  repeat split; apply A; intros q [? [? ?]]; auto.
Qed.
(** smallest: each of the six bounds is attained by a mesh point *)
Theorem C30_tight : forall (T : Type) (NT : Num T) (O : NumOrd T) (s : shape T) (m : mesh T),
  s_bbv s = false -> m_points m <> [] -> (forall q, In q (m_points m) -> s_within 1000000000 q) ->
  let b := fst (shape_bbox s m) in
  forall f : vec3 T -> T, (f = vx \/ f = vy \/ f = vz) ->
  (exists p, In p (m_points m) /\ neqb (f (b_min b)) (f p) = true) /\
  (exists p, In p (m_points m) /\ neqb (f (b_max b)) (f p) = true).
Proof.
  intros T NT O s m V NE W b f F.
  assert (B : f (b_min b) = fmin (map f (m_points m)) (nofZ 1000000000) /\ f (b_max b) = fmax (map f (m_points m)) (nofZ (-1000000000))).
  { unfold b, shape_bbox. rewrite V. cbn [fst]. unfold bb_of_points, bb_init. rewrite bb_axes.
    destruct F as [-> | [-> | ->]]; split; reflexivity. }
  destruct B as [-> ->].
  assert (H9 : (Z.abs 1000000000 <= 2^53)%Z) by (cbn; lia).
  assert (NE' : map f (m_points m) <> []) by (destruct (m_points m); [congruence|discriminate]).
  assert (W' : forall x, In x (map f (m_points m)) -> within (IZR 1000000000) x).
  { intros x X. apply in_map_iff in X. destruct X as [q [<- Q]]. destruct (W q Q) as [? [? ?]]. destruct F as [-> | [-> | ->]]; auto. }
  destruct (fmin_tight _ _ H9 NE' W') as [x [X1 X2]]. destruct (fmax_tight _ _ H9 NE' W') as [y [Y1 Y2]].
  apply in_map_iff in X1, Y1. destruct X1 as [p [<- P]], Y1 as [q [<- Q]]. split; [exists p|exists q]; auto.
Qed.
(** over the reals: the box is contained in every box that contains the points *)
Theorem C30_smallest_real : forall (s : shape R) (m : mesh R) lo hi,
  s_bbv s = false -> m_points m <> [] ->
  (forall q, In q (m_points m) -> s_in_box (V3 (-1000000000) (-1000000000) (-1000000000)) (V3 1000000000 1000000000 1000000000) q) ->
  (forall q, In q (m_points m) -> s_in_box lo hi q) ->
  forall q, s_in_box (b_min (fst (shape_bbox s m))) (b_max (fst (shape_bbox s m))) q -> s_in_box lo hi q.
Proof.
  intros s m lo hi V NE W B q Q.
  assert (W' : forall q, In q (m_points m) -> s_within 1000000000 q).
  { intros p P. destruct (W p P) as [[? ?] [[? ?] [? ?]]]. cbn [vx vy vz] in *.
    assert (A : forall x, - 1000000000 <= x <= 1000000000 -> within 1000000000 x).
    { intros x [X1 X2]. exists (Fin x). split; [reflexivity|]. unfold ext_le, ext_lt. split.
      - destruct X1 as [X1|X1]; [left; auto|right; f_equal; auto].
      - destruct X2 as [X2|X2]; [left; auto|right; f_equal; auto]. }
    repeat split; apply A; lra. }
  pose proof (C30_tight R _ _ s m V NE W') as H. cbv zeta in H.
  destruct (H vx) as [[p1 [P1 E1]] [p2 [P2 E2]]]; auto. destruct (H vy) as [[p3 [P3 E3]] [p4 [P4 E4]]]; auto.
  destruct (H vz) as [[p5 [P5 E5]] [p6 [P6 E6]]]; auto.
  cbn [neqb NumR] in *. rewrite Reqb_true in *.
  apply B in P1, P2, P3, P4, P5, P6. unfold s_in_box in *. lra.
Qed.
(** outside the quantifier of C30: a NaN coordinate makes the box forget all points before it *)
Theorem C30_nan_forgets : forall (T : Type) (NT : Num T) (O : NumOrd T) (s : shape T) (m m' : mesh T) before n p after,
  s_bbv s = false -> nkey (vx n) = None -> m_points m = before ++ n :: p :: after -> m_points m' = n :: p :: after ->
  vx (b_min (fst (shape_bbox s m))) = vx (b_min (fst (shape_bbox s m'))).
Proof.
  intros T NT O s m m' before n p after V K E E'. unfold shape_bbox. rewrite V. cbn [fst]. unfold bb_of_points, bb_init.
  rewrite !bb_axes. cbn [s_bbmin s_bbmax vx box_make b_min]. rewrite E, E', map_app. cbn [map].
  rewrite fmin_nan by auto. symmetry. apply (fmin_nan []). auto.
Qed.
Definition ex_mesh30 : mesh F64 := MkMesh [V3 (fz 3) (fz 4) (fz 0); V3 (fz (-3)) (fz 0) (fz 1)] [] n0 n0 [].
Example C30_nonvacuous : forall q, In q (m_points ex_mesh30) -> s_numeric q /\ s_within 1000000000 q.
Proof.
  assert (A : forall z, (Z.abs z <= 1000)%Z -> is_num (fz z) /\ within 1000000000 (fz z)).
  { intros z Z. assert (Z' : (Z.abs z <= 2^53)%Z) by (cbn; lia). split; [apply nofZ_num; auto|].
    exists (Fin (IZR z)). split; [apply nofZ_key; auto|]. unfold ext_le, ext_lt.
    split; left; [rewrite <- opp_IZR|]; apply IZR_lt; lia. }
  intros q [<-|[<-|[]]]; unfold s_numeric, s_within; cbn [vx vy vz]; repeat split; apply A; lia.
Qed.
Print Assumptions C30_contains.
Print Assumptions C30_tight.
Print Assumptions C30_smallest_real.
Print Assumptions C30_nan_forgets.

(** ** C31: cache coherence of plain shapes, over all call histories, every scalar type *)
Theorem C31_fresh : forall (T : Type) (NT : Num T) (ops : list (shape_op T)),
  let s := shape_run shape_new ops in
  let fresh := shape_setMesh shape_new (s_mesh s) in
  b_min (fst (shape_bbox s (s_mesh s))) = b_min (fst (shape_bbox fresh (s_mesh s))) /\
  b_max (fst (shape_bbox s (s_mesh s))) = b_max (fst (shape_bbox fresh (s_mesh s))).
Proof.
  intros T NT ops s fresh.
  assert (I : bb_inv s) by (apply shape_run_inv; intros H; discriminate H).
  assert (F : bb_inv fresh) by (intros H; discriminate H).
  pose proof (shape_bbox_fresh s I) as A. pose proof (shape_bbox_fresh fresh F) as B.
  change (s_mesh fresh) with (s_mesh s) in B. rewrite <- B in A. injection A as A1 A2. auto.
Qed.
(** the current mesh is the one set last *)
Theorem C31_current : forall (T : Type) (NT : Num T) (ops later : list (shape_op T)) m,
  (forall o, In o later -> o = SBBox \/ o = SMaxRadius) ->
  m_points (s_mesh (shape_run shape_new (ops ++ SSetMesh m :: later))) = m_points m /\
  m_tris (s_mesh (shape_run shape_new (ops ++ SSetMesh m :: later))) = m_tris m.
Proof.
  intros T NT ops later m L. unfold shape_run. rewrite fold_left_app. cbn [fold_left].
  set (s := shape_step _ _). assert (E : m_points (s_mesh s) = m_points m /\ m_tris (s_mesh s) = m_tris m) by (split; reflexivity).
  clearbody s. revert s E. induction later as [|o later IH]; intros s E; cbn [fold_left]; auto.
  apply IH; [intros; apply L; right; auto|]. destruct (L o (or_introl eq_refl)) as [-> | ->]; cbn [shape_step].
  - unfold shape_bbox. cbn [snd]. destruct (s_bbv s); auto. destruct (bb_of_points _). auto.
  - unfold shape_maxRadius, getMaxRadius, getSquaredMaxRadius.
    repeat match goal with |- context [if ?c then _ else _] => destruct c end; auto.
Qed.
Example C31_nonvacuous :
  let s := shape_run shape_new [SSetMesh ex_mesh30; SBBox; SMaxRadius; SSetMesh (MkMesh [V3 (fz 9) (fz 9) (fz 9)] [] n0 n0 []); SBBox; SBBox] in
  s_bbv s = true /\ neqb (vx (b_min (fst (shape_bbox s (s_mesh s))))) (fz 9) = true.
Proof. split; vm_compute; reflexivity. Qed.
Print Assumptions C31_fresh.
Print Assumptions C31_current.
