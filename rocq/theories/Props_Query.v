(** * C33-C35: sphere and point queries on mesh shapes *)
From Coq Require Import ZArith NArith List Bool Lia Reals Lra.
From Verif Require Import Num MathTypes Outcome Mesh Box Spec P_Tac P_Math P_Mesh P_MeshGeo P_Float Props_Mesh Props_Box Props_Height ShapeQuery SpecQuery P_Query P_Query2 P_Query3 P_Query4.
Import ListNotations.
Local Open Scope R_scope.

Lemma max_radius_get : forall (m : mesh R) ops rad, mesh_run mesh_new ops = Ret m -> s_max_radius (m_points m) rad ->
  fst (getMaxRadius m) = rad /\ fst (getSquaredMaxRadius m) = rad * rad.
Proof.
  intros m ops rad RUN [R0 [RB RM]]. destruct (C16_radius m ops RUN) as [A [_ [B [C D]]]].
  assert (E : fst (getMaxRadius m) = rad).
  { destruct RM as [[E ->]|[v [I E]]]; [apply B; auto|]. apply Rle_antisym.
    - destruct C as [w [IW EW]]; [destruct (m_points m); [destruct I|discriminate]|]. rewrite <- EW. apply RB; auto.
    - rewrite <- E. apply A; auto. }
  rewrite D, E. auto.
Qed.
Lemma norm_sq : forall (v : vec3 R) rad, 0 <= rad -> (s_norm v <= rad <-> s_norm2 v <= rad * rad).
Proof.
  intros v rad P. unfold s_norm. change (s_dot v v) with (s_norm2 v). split; intros H.
  - rewrite <- (sqrt_sqrt (s_norm2 v)) by apply norm2_pos. apply Rmult_le_compat; auto using sqrt_pos.
  - rewrite <- (sqrt_square rad) by auto. apply sqrt_le_1_alt. auto.
Qed.
Lemma contains_R : forall (m : mesh R) ops rad p, mesh_run mesh_new ops = Ret m -> s_max_radius (m_points m) rad ->
  mesh_contains m p = if Rlt_dec rad (s_norm p) then Ret false else contains_loop (m_points m) p (s_outside rad) (m_tris m) (Hits 0 (fun _ _ => 0%Z) (fun _ => 0%Z)).
Proof.
  intros m ops rad p RUN MR. destruct (max_radius_get m ops rad RUN MR) as [E1 E2]. destruct MR as [R0 _]. unfold mesh_contains. rewrite E1, E2.
  assert (VL : vlength2 p = s_norm2 p) by apply vlength2_norm2. rewrite VL. pose proof (norm_sq p rad R0) as N.
  unR. destruct (Rltb (rad * rad) (s_norm2 p)) eqn:B.
  - apply Rltb_true in B. destruct Rlt_dec as [|L]; [reflexivity|]. exfalso. apply Rnot_lt_le in L. apply N in L. lra.
  - apply Rltb_false in B. destruct Rlt_dec as [L|L]; [exfalso; apply N in B; lra|]. f_equal.
Qed.

(** ** C34: counting crossings *)
(** for a mesh built by any sequence of operations, a query point within the mesh radius and in general position:
    contains is true exactly when the signed crossings of the segment to the outside point add up to one *)
Theorem C34_general : forall (m : mesh R) ops l rad p, mesh_run mesh_new ops = Ret m -> soup_of m = Some l -> s_max_radius (m_points m) rad ->
  s_norm p <= rad -> (forall t, In t l -> s_generic p (s_outside rad) t) ->
  exists zs, Forall2 (s_crossing p (s_outside rad)) l zs /\ mesh_contains m p = Ret (Z.eqb (s_zsum zs) 1).
Proof.
  intros m ops l rad p RUN S MR NP G. rewrite (contains_R m ops rad p RUN MR). destruct Rlt_dec; [lra|].
  destruct (loop_generic (m_points m) p (s_outside rad) (m_tris m) l (Hits 0 (fun _ _ => 0%Z) (fun _ => 0%Z)) S G) as [zs [F E]].
  exists zs. split; auto.
Qed.
Print Assumptions C34_general.
(** the crossings counted are determined by the geometry *)
Theorem C34_unique : forall p q t z z', s_generic p q t -> s_crossing p q t z -> s_crossing p q t z' -> z = z'.
Proof. intros p q t z z' G A B. rewrite (crossing_seg p q t z), (crossing_seg p q t z'); auto using generic_nz1. Qed.
Print Assumptions C34_unique.
(** beyond the mesh radius the answer is false *)
Theorem C34_far : forall (m : mesh R) ops rad p, mesh_run mesh_new ops = Ret m -> s_max_radius (m_points m) rad -> rad < s_norm p -> mesh_contains m p = Ret false.
Proof. intros m ops rad p RUN MR F. rewrite (contains_R m ops rad p RUN MR). destruct Rlt_dec; [reflexivity|lra]. Qed.
Print Assumptions C34_far.
(** a point on a triangle is contained, whatever the other triangles (the line to the outside point clear of its edges) *)
Theorem C34_on_triangle : forall (m : mesh R) ops l rad p a b c, mesh_run mesh_new ops = Ret m -> soup_of m = Some l -> s_max_radius (m_points m) rad ->
  In (a, b, c) l -> in_triangle a b c p ->
  1 / 10 ^ 16 < Rabs (s_orient p (s_outside rad) a b) -> 1 / 10 ^ 16 < Rabs (s_orient p (s_outside rad) b c) -> 1 / 10 ^ 16 < Rabs (s_orient p (s_outside rad) c a) ->
  mesh_contains m p = Ret true.
Proof.
  intros m ops l rad p a b c RUN S MR I T O1 O2 O3. rewrite (contains_R m ops rad p RUN MR).
  destruct (C16_radius m ops RUN) as [_ [A _]]. destruct (max_radius_get m ops rad RUN MR) as [E1 _]. specialize (A l a b c p S I T). rewrite E1 in A.
  destruct Rlt_dec; [lra|]. unfold soup_of in S.
  assert (X : exists t, In t (m_tris m) /\ point_at (m_points m) (ti1 t) = Some a /\ point_at (m_points m) (ti2 t) = Some b /\ point_at (m_points m) (ti3 t) = Some c).
  { revert l S I. generalize (m_tris m). induction l as [|t ts IH]; intros l S I; [injection S as <-; destruct I|].
    change (map idx (t :: ts)) with ((ti1 t, ti2 t, ti3 t) :: map idx ts) in S. cbn [s_soup] in S. rewrite !s_nth_nth_error in S. unfold point_at in *.
    destruct (nth_error (m_points m) (N.to_nat (ti1 t))) eqn:N1; [|discriminate]. destruct (nth_error (m_points m) (N.to_nat (ti2 t))) eqn:N2; [|discriminate].
    destruct (nth_error (m_points m) (N.to_nat (ti3 t))) eqn:N3; [|discriminate]. destruct (s_soup (m_points m) (map idx ts)) as [r|] eqn:N4; [|discriminate].
    injection S as <-. destruct I as [I|I]; [injection I as -> -> ->; exists t; cbn; auto|]. destruct (IH r eq_refl I) as [t' [Q1 Q2]]. exists t'. cbn. auto. }
  destruct X as [t [IT [X1 [X2 X3]]]]. apply (loop_on _ _ _ _ _ _ _ t); auto.
  - apply soup_valid. eauto.
  - intros h. eapply tri_on; eauto.
Qed.
Print Assumptions C34_on_triangle.
(** with valid indices every point and every number type gets an answer *)
Theorem C34_returns : forall (T : Type) (NT : Num T) (m : mesh T) p, valid_mesh m -> exists b, mesh_contains m p = Ret b.
Proof. intros T NT m p V. unfold mesh_contains. destruct (_ <? _)%num; [eauto|]. apply loop_ret. auto. Qed.
Print Assumptions C34_returns.

(** ** C35: outside points *)
(** points outside any convex set around a closed mesh are not contained.
    Partial: only for points in general position with respect to the outside point used by the code *)
Theorem C35_convex_partial : forall (K : vec3 R -> Prop) (m : mesh R) ops l rad p, mesh_run mesh_new ops = Ret m -> soup_of m = Some l -> s_max_radius (m_points m) rad ->
  s_closed_surface (map idx (m_tris m)) -> s_convex K -> (forall v, In v (m_points m) -> K v) -> ~ K p ->
  (forall t, In t l -> s_generic p (s_outside rad) t) -> mesh_contains m p = Ret false.
Proof.
  intros K m ops l rad p RUN S MR CL CV KP NK G. destruct (Rlt_dec rad (s_norm p)) as [F|F]; [eapply C34_far; eauto|]. apply Rnot_lt_le in F.
  destruct (C34_general m ops l rad p RUN S MR F G) as [zs [FZ ->]]. destruct MR as [R0 [RB _]].
  rewrite (convex_zero K p rad (m_points m) _ l zs S CL CV KP NK R0); auto.
  - apply norm_sq; auto.
  - intros v I. apply norm_sq; auto.
  - intros t I. apply generic_nz. auto.
Qed.
Print Assumptions C35_convex_partial.
(** in particular outside the bounding box *)
Theorem C35_box_partial : forall (m : mesh R) ops l rad mn mx p, mesh_run mesh_new ops = Ret m -> soup_of m = Some l -> s_max_radius (m_points m) rad ->
  s_closed_surface (map idx (m_tris m)) -> (forall v, In v (m_points m) -> s_in_box mn mx v) -> ~ s_in_box mn mx p ->
  (forall t, In t l -> s_generic p (s_outside rad) t) -> mesh_contains m p = Ret false.
Proof.
  intros m ops l rad mn mx p RUN S MR CL B NB G. apply (C35_convex_partial (s_in_box mn mx) m ops l rad p); auto.
  clear. intros a b t [A1 [A2 A3]] [B1 [B2 B3]] T. unfold s_in_box, s_between. fields.
  assert (IV : forall lo hi x y, lo <= x <= hi -> lo <= y <= hi -> lo <= x + t * (y - x) <= hi) by (intros; split; nra). auto.
Qed.
Print Assumptions C35_box_partial.
(** points that can be joined by a path that meets no triangle get the same answer; so every point joined to a point
    outside a convex set around the mesh (pockets, holes) is not contained *)
Theorem C35_joined_partial : forall (m : mesh R) ops l rad p p', mesh_run mesh_new ops = Ret m -> soup_of m = Some l -> s_max_radius (m_points m) rad ->
  s_closed_surface (map idx (m_tris m)) -> s_norm p <= rad -> s_norm p' <= rad -> s_joined l (s_outside rad) p p' ->
  (forall t, In t l -> s_generic p (s_outside rad) t) -> (forall t, In t l -> s_generic p' (s_outside rad) t) ->
  mesh_contains m p = mesh_contains m p'.
Proof.
  intros m ops l rad p p' RUN S MR CL N1 N2 J G1 G2.
  destruct (C34_general m ops l rad p RUN S MR N1 G1) as [zs [FZ ->]]. destruct (C34_general m ops l rad p' RUN S MR N2 G2) as [zs' [FZ' ->]].
  rewrite (crossing_segs _ _ _ _ (fun t I => generic_nz1 _ _ _ (G1 t I)) FZ), (crossing_segs _ _ _ _ (fun t I => generic_nz1 _ _ _ (G2 t I)) FZ').
  rewrite (joined_sum (s_outside rad) (m_points m) _ l S CL p p' J). reflexivity.
Qed.
Print Assumptions C35_joined_partial.

(** *** a tetrahedron, points inside and outside *)
Lemma area_gap : forall x1 x2 x3 x4 l1 l2 l3 u, 0 <= l1 -> 0 <= l2 -> 0 <= l3 -> 0 <= u -> l1 * l1 <= x1 -> l2 * l2 <= x2 -> l3 * l3 <= x3 -> x4 <= u * u -> u + 1 / 10 <= l1 + l2 + l3 ->
  1 / 10 ^ 12 <= Rabs (sqrt x1 / 2 + sqrt x2 / 2 + sqrt x3 / 2 - sqrt x4 / 2).
Proof.
  intros x1 x2 x3 x4 l1 l2 l3 u P1 P2 P3 P4 Q1 Q2 Q3 Q4 S.
  assert (LB : forall l x, 0 <= l -> l * l <= x -> l <= sqrt x) by (intros l x P Q; rewrite <- (sqrt_square l) by auto; apply sqrt_le_1_alt; auto).
  assert (UB : sqrt x4 <= u) by (rewrite <- (sqrt_square u) by auto; apply sqrt_le_1_alt; auto).
  pose proof (LB _ _ P1 Q1). pose proof (LB _ _ P2 Q2). pose proof (LB _ _ P3 Q3). rewrite Rabs_pos_eq; lra.
Qed.
Definition tet_ops : list (mesh_op R) := [OAddPoint (V3 2 1 2); OAddPoint (V3 (-2) 1 1); OAddPoint (V3 0 (-2) 1); OAddPoint (V3 0 0 (-2));
  OAddTriangle 0 1 2; OAddTriangle 0 3 1; OAddTriangle 0 2 3; OAddTriangle 1 3 2].
Definition tet_soup : list triple := [(V3 2 1 2, V3 (-2) 1 1, V3 0 (-2) 1); (V3 2 1 2, V3 0 0 (-2), V3 (-2) 1 1); (V3 2 1 2, V3 0 (-2) 1, V3 0 0 (-2)); (V3 (-2) 1 1, V3 0 0 (-2), V3 0 (-2) 1)].
Ltac tetn := unfold s_orient, s_height, s_det, s_diff, s_outside, s_dot; cbn [vx vy vz].
Ltac absnum := match goal with |- _ < Rabs ?x => first [rewrite (Rabs_pos_eq x) by lra; lra | rewrite (Rabs_left1 x) by lra; lra] end.
Ltac gap l1 l2 l3 u := unfold s_area; apply (area_gap _ _ _ _ l1 l2 l3 u); tetn; lra.
Ltac gen1 l1 l2 l3 u := split; [tetn; absnum|]; split; [tetn; absnum|]; split; [tetn; absnum|]; split; [tetn; absnum|gap l1 l2 l3 u].
Lemma tet_mesh : exists m, mesh_run mesh_new tet_ops = Ret m /\ soup_of m = Some tet_soup /\ s_max_radius (m_points m) 3 /\ s_closed_surface (map idx (m_tris m)) /\
  (forall v, In v (m_points m) -> s_in_box (V3 (-2) (-2) (-2)) (V3 2 1 2) v).
Proof.
  eexists. split; [reflexivity|]. split; [reflexivity|]. split; [|split].
  - cbn. split; [lra|]. split.
    + intros v H. apply norm_sq; [lra|]. unfold s_norm2. destruct H as [<-|[<-|[<-|[<-|[]]]]]; tetn; lra.
    + right. exists (V3 2 1 2). split; [left; reflexivity|]. unfold s_norm. replace (s_dot (V3 2 1 2) (V3 2 1 2)) with (3 * 3) by (tetn; ring). apply sqrt_square. lra.
  - cbn. split.
    + repeat (constructor; [cbn; intuition discriminate|]). constructor.
    + intros i j H. cbn in H. repeat (destruct H as [H|H]; [injection H as <- <-; split; [discriminate|cbn; tauto]|]). destruct H.
  - cbn. intros v H. unfold s_in_box. destruct H as [<-|[<-|[<-|[<-|[]]]]]; cbn [vx vy vz]; lra.
Qed.
Lemma tet_in : forall t, In t tet_soup -> s_generic (V3 0 (1/10) (1/5)) (s_outside 3) t.
Proof. intros t H. destruct H as [<-|[<-|[<-|[<-|[]]]]]; [gen1 5 6 6 13|gen1 (47/10) (63/10) (47/10) (146/10)|gen1 (47/10) (47/10) (63/10) (133/10)|gen1 (46/10) 5 (47/10) 12]. Qed.
Lemma tet_in2 : forall t, In t tet_soup -> s_generic (V3 (1/5) (1/10) (1/2)) (s_outside 3) t.
Proof. intros t H. destruct H as [<-|[<-|[<-|[<-|[]]]]]; [gen1 5 5 (55/10) 13|gen1 6 (56/10) (46/10) (146/10)|gen1 (53/10) (46/10) (52/10) (133/10)|gen1 5 5 6 12]. Qed.
Lemma tet_out : forall t, In t tet_soup -> s_generic (V3 0 2 1) (s_outside 3) t.
Proof. intros t H. destruct H as [<-|[<-|[<-|[<-|[]]]]]; [gen1 8 8 4 13|gen1 (78/10) (45/10) (87/10) 15|gen1 12 8 8 14|gen1 12 8 7 12]. Qed.
Example C34_nonvacuous : exists m l, mesh_run mesh_new tet_ops = Ret m /\ soup_of m = Some l /\ length l = 4%nat /\ s_max_radius (m_points m) 3 /\ s_norm (V3 0 (1/10) (1/5)) <= 3 /\
  (forall t, In t l -> s_generic (V3 0 (1/10) (1/5)) (s_outside 3) t) /\ mesh_contains m (V3 0 (1/10) (1/5)) = Ret true.
Proof.
  destruct tet_mesh as [m [RUN [S [MR [CL _]]]]]. exists m, tet_soup. assert (N : s_norm (V3 0 (1/10) (1/5)) <= 3) by (apply norm_sq; [lra|]; unfold s_norm2; tetn; lra).
  do 6 (split; [auto using tet_in|]). destruct (C34_general m tet_ops tet_soup 3 _ RUN S MR N tet_in) as [zs [F ->]]. f_equal. apply Z.eqb_eq.
  rewrite (crossing_segs _ _ _ _ (fun t I => generic_nz1 _ _ _ (tet_in t I)) F).
  assert (PT : forall x, 0 < x -> pos x = true) by (intros x X; unfold pos; destruct Rlt_dec; auto; lra).
  assert (PF : forall x, x < 0 -> pos x = false) by (intros x X; unfold pos; destruct Rlt_dec; auto; lra).
  assert (SG : forall a b c x y z, a <> 0 -> b <> 0 -> c <> 0 -> pos a = x -> pos b = y -> pos c = z -> sgn3 a b c = sgb x y z) by (intros; subst; apply sgn3_b; auto).
  unfold tet_soup, s_zsum. cbn [map fold_right segt]. unfold seg.
  rewrite (PF (s_height (V3 2 1 2) (V3 (-2) 1 1) (V3 0 (-2) 1) _)), (PF (s_height (V3 2 1 2) (V3 (-2) 1 1) (V3 0 (-2) 1) _)) by (tetn; lra).
  rewrite (PF (s_height (V3 2 1 2) (V3 0 0 (-2)) (V3 (-2) 1 1) _)), (PF (s_height (V3 2 1 2) (V3 0 0 (-2)) (V3 (-2) 1 1) _)) by (tetn; lra).
  rewrite (PF (s_height (V3 (-2) 1 1) (V3 0 0 (-2)) (V3 0 (-2) 1) _)), (PF (s_height (V3 (-2) 1 1) (V3 0 0 (-2)) (V3 0 (-2) 1) _)) by (tetn; lra).
  rewrite (PF (s_height (V3 2 1 2) (V3 0 (-2) 1) (V3 0 0 (-2)) (V3 0 (1/10) (1/5)))), (PT (s_height (V3 2 1 2) (V3 0 (-2) 1) (V3 0 0 (-2)) (s_outside 3))) by (tetn; lra).
  rewrite (SG (s_orient (V3 0 (1 / 10) (1 / 5)) (s_outside 3) (V3 2 1 2) (V3 0 (-2) 1)) _ _ true true true); [reflexivity|..]; try (apply PT; tetn; lra); tetn; lra.
Qed.
Example C35_nonvacuous : exists m l, mesh_run mesh_new tet_ops = Ret m /\ soup_of m = Some l /\ s_max_radius (m_points m) 3 /\ s_closed_surface (map idx (m_tris m)) /\
  (forall v, In v (m_points m) -> s_in_box (V3 (-2) (-2) (-2)) (V3 2 1 2) v) /\ ~ s_in_box (V3 (-2) (-2) (-2)) (V3 2 1 2) (V3 0 2 1) /\ s_norm (V3 0 2 1) <= 3 /\
  (forall t, In t l -> s_generic (V3 0 2 1) (s_outside 3) t) /\
  (forall t, In t l -> s_generic (V3 0 (1/10) (1/5)) (s_outside 3) t) /\ (forall t, In t l -> s_generic (V3 (1/5) (1/10) (1/2)) (s_outside 3) t) /\
  s_joined l (s_outside 3) (V3 0 (1/10) (1/5)) (V3 (1/5) (1/10) (1/2)).
Proof.
  destruct tet_mesh as [m [RUN [S [MR [CL B]]]]]. exists m, tet_soup. do 5 (split; [assumption|]). split; [unfold s_in_box; cbn [vx vy vz]; lra|].
  split; [apply norm_sq; [lra|]; unfold s_norm2; tetn; lra|]. split; [exact tet_out|]. split; [exact tet_in|]. split; [exact tet_in2|].
  assert (GN : forall t, In t tet_soup -> s_general (V3 0 (1/10) (1/5)) (V3 (1/5) (1/10) (1/2)) (s_outside 3) t).
  { intros t H. destruct H as [<-|[<-|[<-|[<-|[]]]]]; unfold s_general; tetn; lra. }
  eapply joined_step; [|exact GN|apply joined_refl].
  intros a b c H M. destruct (GN _ H) as [[A1 [A2 A3]] _]. apply (meets_iff _ _ _ _ _ A1 A2 A3) in M. destruct M as [_ M]. revert M. clear - H.
  destruct H as [H|[H|[H|[H|[]]]]]; injection H as <- <- <-; tetn; lra.
Qed.
(** a point outside the bounding box of a closed mesh that contains() accepts (doubles): the segment to the outside
    point passes through edges shared by several triangles *)
Theorem C35_refuted : exists (m : mesh F64) (p : vec3 F64),
  m = generate_mesh (V3 (nofZ (-2)) (nofZ (-2)) (nofZ 0)) (V3 (nofZ 2) (nofZ 2) (nofZ 1)) mesh_new /\ s_closed_surface (map idx (m_tris m)) /\
  forallb (fun v => nltb (vx p) (vx v)) (m_points m) = true /\ mesh_contains m p = Ret true.
Proof.
  exists (generate_mesh (V3 (nofZ (-2)) (nofZ (-2)) (nofZ 0)) (V3 (nofZ 2) (nofZ 2) (nofZ 1)) mesh_new), (V3 (nlit (-25) 10) (nofZ 0) (nofZ 0)).
  split; [reflexivity|]. split; [|split; [vm_compute; reflexivity|]].
  - match goal with |- s_closed_surface ?l => let l' := eval vm_compute in l in change l with l' end. split.
    + repeat (constructor; [cbn; intuition discriminate|]). constructor.
    + intros i j H. cbn in H. repeat (destruct H as [H|H]; [injection H as <- <-; split; [discriminate|cbn; tauto]|]). destruct H.
  - vm_compute. reflexivity.
Qed.
Print Assumptions C35_refuted.

(** ** C33: balls *)
Lemma sphere_loop_R : forall pts (p : vec3 R) r2 ts l, s_soup pts (map idx ts) = Some l ->
  sphere_loop pts p r2 ts = Ret (existsb (fun t : triple => let '(a, b, c) := t in sphere_tri p r2 a b c) l).
Proof.
  intros pts p r2. induction ts as [|t ts IH]; intros l S; [injection S as <-; reflexivity|].
  change (map idx (t :: ts)) with ((ti1 t, ti2 t, ti3 t) :: map idx ts) in S. cbn [s_soup] in S. rewrite !s_nth_nth_error in S. cbn [sphere_loop]. unfold point_at in *.
  destruct (nth_error pts (N.to_nat (ti1 t))) as [a|]; [|discriminate]. destruct (nth_error pts (N.to_nat (ti2 t))) as [b|]; [|discriminate].
  destruct (nth_error pts (N.to_nat (ti3 t))) as [c|]; [|discriminate]. destruct (s_soup pts (map idx ts)) as [r|] eqn:E; [|discriminate]. injection S as <-.
  cbn [or_ub obind existsb]. rewrite (IH r eq_refl). destruct (sphere_tri p r2 a b c); reflexivity.
Qed.
Lemma nrm_collinear : forall a b c : vec3 R, ~ collinear a b c -> s_norm2 (nrm a b c) <> 0.
Proof.
  intros a b c NC Z. apply NC. apply cross_zero_collinear. rewrite <- Z. f_equal. clear. unfold nrm, cr, s_diff, vcross, vsub. unR. fields. apply V3_eq; ring.
Qed.
Lemma tri_inequality : forall a b : vec3 R, s_norm a <= s_norm b + s_dist a b.
Proof.
  intros a b. set (d := s_diff a b). assert (E : s_dist a b = s_norm d) by (unfold s_dist, s_norm, d, s_dist2, s_diff, s_dot; f_equal; fields; ring). rewrite E.
  assert (P : 0 <= s_norm b + s_norm d) by (pose proof (sqrt_pos (s_dot b b)); pose proof (sqrt_pos (s_dot d d)); unfold s_norm; lra).
  apply norm_sq; auto. assert (S : forall v, s_norm v * s_norm v = s_norm2 v) by (intros v; apply sqrt_sqrt, norm2_pos).
  replace ((s_norm b + s_norm d) * (s_norm b + s_norm d)) with (s_norm2 b + s_norm2 d + 2 * (s_norm b * s_norm d)) by (rewrite <- !S; ring).
  assert (A : s_norm2 a = s_norm2 b + s_norm2 d + 2 * s_dot b d) by (unfold d, s_norm2, s_dot, s_diff; fields; ring). rewrite A.
  assert (C : s_dot b d <= s_norm b * s_norm d); [|lra].
  destruct (Rle_dec (s_dot b d) 0) as [L|L]. { assert (0 <= s_norm b * s_norm d) by (apply Rmult_le_pos; apply sqrt_pos). lra. }
  unfold s_norm. rewrite <- sqrt_mult by apply norm2_pos. rewrite <- (sqrt_square (s_dot b d)) by lra. apply sqrt_le_1_alt. apply cauchy.
Qed.
(** true is only returned for a point that contains() accepts or a ball that reaches a triangle, up to a relative
    1e-9 on the squared radius (and 1e-18 of the squared edge lengths) *)
Theorem C33_sound : forall (m : mesh R) ops l p rad, mesh_run mesh_new ops = Ret m -> soup_of m = Some l ->
  (forall a b c, In (a, b, c) l -> ~ collinear a b c) -> mesh_sphere m p rad = Ret true ->
  mesh_contains m p = Ret true \/
  (0 < rad /\ exists a b c x, In (a, b, c) l /\ in_triangle a b c x /\ s_dist2 p x <= rad * rad * (1 + 1 / 10 ^ 9) + (s_dist2 a b + s_dist2 b c + s_dist2 c a) / 10 ^ 18).
Proof.
  intros m ops l p rad RUN S ND H. unfold mesh_sphere in H. destruct (_ <? _)%num eqn:EO in H; [discriminate|]. clear EO. unR.
  destruct (Rltb 0 rad) eqn:B; [|left; exact H]. apply Rltb_true in B. unfold soup_of in S. rewrite (sphere_loop_R _ _ _ _ l S) in H. cbn [obind] in H.
  match type of H with (if ?e then _ else _) = _ => destruct e eqn:X end; [|left; exact H]. right. split; auto.
  apply existsb_exists in X. destruct X as [[[a b] c] [I X]]. apply tri_sound in X; [|apply Rmult_lt_0_compat; auto|apply nrm_collinear; auto].
  destruct X as [x [T D]]. exists a, b, c, x. split; auto.
Qed.
Print Assumptions C33_sound.
(** a ball that reaches a triangle is accepted when its centre is not behind that triangle, or when it reaches an edge.
    Partial: balls that only reach the inside of a triangle from behind (see below) *)
Theorem C33_complete_partial : forall (m : mesh R) ops l p rad a b c x, mesh_run mesh_new ops = Ret m -> soup_of m = Some l ->
  In (a, b, c) l -> ~ collinear a b c -> in_triangle a b c x -> s_dist p x < rad ->
  0 <= s_height a b c p \/ (exists t, 0 <= t <= 1 /\ (x = s_between a b t \/ x = s_between b c t \/ x = s_between c a t)) ->
  mesh_sphere m p rad = Ret true.
Proof.
  intros m ops l p rad a b c x RUN S I ND T D SIDE. unfold mesh_sphere. destruct (C16_radius m ops RUN) as [_ [NX _]]. specialize (NX l a b c x S I T).
  assert (D0 : 0 <= s_dist p x) by apply sqrt_pos.
  destruct (_ <? _)%num eqn:EO.
  - unR. apply Rltb_true in EO. exfalso. pose proof (tri_inequality p x). assert (VL : vlength p = s_norm p) by (unfold s_norm; dvec; unmath; unspec; f_equal; ring).
    rewrite VL in EO. lra.
  - clear EO. unR. replace (Rltb 0 rad) with true by (symmetry; apply Rltb_true; lra). unfold soup_of in S. rewrite (sphere_loop_R _ _ _ _ l S). cbn [obind].
    replace (existsb _ l) with true; [reflexivity|]. symmetry. apply existsb_exists. exists (a, b, c). split; auto.
    assert (D2 : s_dist2 p x < rad * rad).
    { unfold s_dist in *. rewrite <- (sqrt_sqrt (s_dist2 p x)) by apply dist2_pos. apply Rmult_le_0_lt_compat; auto. }
    apply nrm_collinear in ND. destruct SIDE as [F|[t [TT E]]]; [eapply tri_front; eauto|eapply tri_edge; eauto].
Qed.
Print Assumptions C33_complete_partial.
(** the query returns for every mesh with valid indices *)
Theorem C33_returns : forall (T : Type) (NT : Num T) (m : mesh T) p r, valid_mesh m -> exists b, mesh_sphere m p r = Ret b.
Proof.
  intros T NT m p r V. unfold mesh_sphere. destruct (_ <? _)%num; [eauto|]. destruct (C34_returns T NT m p V) as [b E]. rewrite E.
  assert (L : forall ts r2, s_valid (length (m_points m)) (map idx ts) -> exists b, sphere_loop (m_points m) p r2 ts = Ret b).
  { induction ts as [|t ts IH]; intros r2 W; [eexists; reflexivity|]. destruct (valid_lookup _ _ _ t W (or_introl eq_refl)) as [x [y [z [X [Y Z]]]]].
    cbn [sphere_loop]. rewrite X, Y, Z. cbn [or_ub obind]. destruct (sphere_tri _ _ _ _ _); [eauto|]. apply IH. intros i j k H. apply W. right. auto. }
  destruct (_ <? _)%num; cbn [obind]; [|eauto]. destruct (L (m_tris m) (r * r)%num V) as [b' ->]. cbn [obind]. destruct b'; eauto.
Qed.
Print Assumptions C33_returns.
(** from behind, a ball reaching the inside of a triangle can be missed: centre 0.2 behind the triangle
    (0,0,0) (1,0,0) (0,1,0), radius 0.21 (doubles) *)
Theorem C33_back_refuted : exists (m : mesh F64) (p x : vec3 F64) (r : F64),
  m_points m = [V3 (nofZ 0) (nofZ 0) (nofZ 0); V3 (nofZ 1) (nofZ 0) (nofZ 0); V3 (nofZ 0) (nofZ 1) (nofZ 0)] /\ m_tris m = [TI 0 1 2] /\
  x = V3 (vx p) (vy p) (nofZ 0) /\ forallb (fun z => nleb (nofZ 0) z) [vx x; vy x] = true /\ nltb (vx x + vy x)%num (nofZ 1) = true /\
  nltb (vlength (vsub p x)) r = true /\ mesh_sphere m p r = Ret false.
Proof.
  exists (addTriangle (snd (addPoint (snd (addPoint (snd (addPoint mesh_new (V3 (nofZ 0) (nofZ 0) (nofZ 0)))) (V3 (nofZ 1) (nofZ 0) (nofZ 0)))) (V3 (nofZ 0) (nofZ 1) (nofZ 0)))) 0 1 2).
  exists (V3 (nlit 25 100) (nlit 25 100) (nlit (-2) 10)), (V3 (nlit 25 100) (nlit 25 100) (nofZ 0)), (nlit 21 100).
  split; [reflexivity|]. split; [reflexivity|]. split; [reflexivity|]. split; [vm_compute; reflexivity|]. split; [vm_compute; reflexivity|]. split; vm_compute; reflexivity.
Qed.
Print Assumptions C33_back_refuted.
Example C33_nonvacuous : exists (m : mesh R) l, mesh_run mesh_new [OAddPoint (V3 0 0 0); OAddPoint (V3 1 0 0); OAddPoint (V3 0 1 0); OAddTriangle 0 1 2] = Ret m /\ soup_of m = Some l /\
  l = [(V3 0 0 0, V3 1 0 0, V3 0 1 0)] /\ ~ collinear (V3 0 0 0) (V3 1 0 0) (V3 0 1 0) /\ in_triangle (V3 0 0 0) (V3 1 0 0) (V3 0 1 0) (V3 (1/4) (1/4) 0) /\
  s_dist (V3 (1/4) (1/4) (1/5)) (V3 (1/4) (1/4) 0) < 21 / 100 /\ 0 <= s_height (V3 0 0 0) (V3 1 0 0) (V3 0 1 0) (V3 (1/4) (1/4) (1/5)) /\
  mesh_sphere m (V3 (1/4) (1/4) (1/5)) (21/100) = Ret true.
Proof.
  eexists. exists [(V3 0 0 0, V3 1 0 0, V3 0 1 0)]. split; [reflexivity|]. split; [reflexivity|]. split; [reflexivity|].
  assert (NC : ~ collinear (V3 0 0 0) (V3 1 0 0) (V3 0 1 0)).
  { intros [o [d [r [s [t [A [B C]]]]]]]. unfold vadd, vscale in *. unR. fields. injection A as A1 A2 A3. injection B as B1 B2 B3. injection C as C1 C2 C3. nra. }
  assert (IT : in_triangle (V3 0 0 0) (V3 1 0 0) (V3 0 1 0) (V3 (1/4) (1/4) 0)) by (exists (1/2), (1/4), (1/4); repeat split; try lra; cbn [vx vy vz]; apply V3_eq; lra).
  assert (DD : s_dist (V3 (1/4) (1/4) (1/5)) (V3 (1/4) (1/4) 0) < 21 / 100).
  { unfold s_dist, s_dist2. cbn [vx vy vz]. replace ((1/4 - 1/4) ^ 2 + (1/4 - 1/4) ^ 2 + (1/5 - 0) ^ 2) with ((1/5) * (1/5)) by field. rewrite sqrt_square; lra. }
  assert (HH : 0 <= s_height (V3 0 0 0) (V3 1 0 0) (V3 0 1 0) (V3 (1/4) (1/4) (1/5))) by (tetn; lra).
  do 4 (split; [assumption|]). eapply (C33_complete_partial _ [OAddPoint (V3 0 0 0); OAddPoint (V3 1 0 0); OAddPoint (V3 0 1 0); OAddTriangle 0 1 2]); try reflexivity; eauto. left; reflexivity.
Qed.
