(** * Properties C36-C39: composite shapes *)
From Coq Require Import ZArith NArith List Bool Lia Reals Lra Psatz.
From Verif Require Import Num MathTypes Outcome Mesh Box Composite Spec SpecComposite NumOrd P_Tac P_Math P_Rot P_Mesh P_MeshGeo P_Box P_BoxMesh P_Composite.
Import ListNotations.
Local Open Scope R_scope.

(** fewer than 2^32 mesh vertices, 8 per box *)
Definition s_small (t : ctree R) : Prop := (N.of_nat (8 * s_nboxes t) < 2^32)%N.

Lemma sub_ok : forall l t pose, s_wf (TComp l) -> s_small (TComp l) -> In (t, pose) l -> s_wf t /\ rigid pose /\ s_small t.
Proof.
  intros l t pose W S I. inversion W as [|? H]; subst. destruct (H _ _ I). split; auto. split; auto.
  unfold s_small in *. apply in_split in I. destruct I as [l1 [l2 ->]]. rewrite nboxes_app in S.
  change (s_nboxes (TComp ((t, pose) :: l2))) with (s_nboxes t + s_nboxes (TComp l2))%nat in S. lia.
Qed.

(** example history: a composite holding the box [1,2]^3 and, turned by a right angle about z and moved, a composite
    holding the box [-1,1]x[0,3]x[0,1] *)
Definition ex_rot : trans3 R := T3 (M3 0 (-1) 0 1 0 0 0 0 1) (V3 10 0 0).
Definition ex_tree : ctree R :=
  TComp [(TBox (V3 1 1 1) (V3 2 2 2), tidentity); (TComp [(TBox (V3 (-1) 0 0) (V3 1 3 1), T3 m3identity (V3 0 0 5))], ex_rot)].
Lemma ex_tree_ok : s_wf ex_tree /\ s_small ex_tree.
Proof.
  split.
  - constructor. intros t pose [[= <- <-]|[[= <- <-]|[]]]; split.
    + constructor. unfold s_ordered. cbn [vx vy vz]. lra.
    + apply rigid_identity.
    + constructor. intros t pose [[= <- <-]|[]]. split.
      * constructor. unfold s_ordered. cbn [vx vy vz]. lra.
      * apply rigid_identity.
    + unfold rigid, ex_rot. cbn [tR]. apply rotation_of_facts; unmath; lra.
  - unfold s_small. cbn. lia.
Qed.

(** ** C36: for every tree of boxes and composites with rigid poses *)
Theorem C36_region : forall t, s_wf t -> s_small t -> exists ch, build t = Ret ch /\
  forall p, exists b, ch_contains ch p = Ret b /\ (b = true <-> s_in t p).
Proof. intros t W S. destruct (build_ok t W S) as [ch [E B]]. exists ch. split; auto. apply (b_c _ _ B). Qed.
Theorem C36_union : forall l, s_wf (TComp l) -> s_small (TComp l) -> exists ch, build (TComp l) = Ret ch /\
  forall p, ch_contains ch p = Ret true <->
    exists t pose ch', In (t, pose) l /\ build t = Ret ch' /\ ch_contains ch' (tapply (tinverse pose) p) = Ret true.
Proof.
  intros l W S. destruct (build_ok _ W S) as [ch [E B]]. exists ch. split; auto. intros p.
  destruct (b_c _ _ B p) as [b [-> K]].
  assert (RG : forall t pose, In (t, pose) l -> rigid pose) by (intros; eapply sub_ok; eauto).
  rewrite (in_comp_iff l p RG) in K. split.
  - intros [= ->]. destruct (proj1 K eq_refl) as [t [pose [I Q]]]. destruct (sub_ok l t pose W S I) as [W' [_ S']].
    destruct (build_ok t W' S') as [ch' [E' B']]. exists t, pose, ch'. split; auto. split; auto.
    destruct (b_c _ _ B' (tapply (tinverse pose) p)) as [b' [-> K']]. rewrite (proj2 K' Q). auto.
  - intros [t [pose [ch' [I [E' Q]]]]]. f_equal. apply K. exists t, pose. split; auto.
    destruct (sub_ok l t pose W S I) as [W' [_ S']]. destruct (build_ok t W' S') as [ch'' [E'' B']].
    rewrite E' in E''. injection E'' as <-. destruct (b_c _ _ B' (tapply (tinverse pose) p)) as [b' [K' K'']].
    rewrite Q in K'. injection K' as <-. apply K''. auto.
Qed.
Example C36_nonvacuous : s_wf ex_tree /\ s_small ex_tree /\ s_in ex_tree (V3 8 1 5) /\ ~ s_in ex_tree (V3 8 (-2) 5).
Proof.
  destruct ex_tree_ok as [W S]. split; auto. split; auto. split.
  - replace (V3 8 1 5) with (tapply ex_rot (V3 1 2 5)) by (unfold ex_rot; unmath; apply V3_eq; ring).
    eapply in_comp; [right; left; reflexivity|].
    replace (V3 1 2 5) with (tapply (T3 m3identity (V3 0 0 5)) (V3 1 2 0)) by (unmath; apply V3_eq; ring).
    eapply in_comp; [left; reflexivity|]. constructor. unfold s_in_box. cbn [vx vy vz]. lra.
  - assert (K : forall l p, s_in (TComp l) p -> exists t pose q, In (t, pose) l /\ s_in t q /\ p = tapply pose q)
      by (intros l p H; inversion H; subst; eauto 10).
    intros H. destruct (K _ _ H) as [t [pose [q [I [Q E]]]]]. destruct I as [[= <- <-]|[[= <- <-]|[]]].
    + inversion Q as [? ? ? B|]; subst. rewrite tapply_id in E. subst q. unfold s_in_box in B. cbn [vx vy vz] in B. lra.
    + destruct (K _ _ Q) as [t [pose [q' [I' [Q' E']]]]]. destruct I' as [[= <- <-]|[]].
      inversion Q' as [? ? ? B|]; subst. destruct q' as [a b c]. unfold s_in_box in B. cbn [vx vy vz] in B.
      unfold ex_rot in E. unmath. injection E as F1 F2 F3. lra.
Qed.
Print Assumptions C36_region.
Print Assumptions C36_union.

(** ** C37: a placed box is hit when the ray line leaves it after t0 and enters it before t1; the reported distance is
    the entry parameter of the box entered first among those left after t0 *)
Theorem C37_nearest : forall t, s_wf t -> s_small t -> exists ch, build t = Ret ch /\
  forall o d t0 t1 d0, (forall q, s_frame t q -> s_general_dir (m3mulv (tR (tinverse q)) d)) ->
  let inside mn mx pose s := s_placed mn mx pose (s_ray_at o (s_unit d) s) in
  let ahead mn mx pose := exists s, t0 < s /\ inside mn mx pose s in
  exists h x, ch_ray ch (ray_make o d) t0 t1 d0 = Ret (h, x) /\
  (h = true <-> exists mn mx pose, s_leaf t mn mx pose /\ ahead mn mx pose /\ exists s, s < t1 /\ inside mn mx pose s) /\
  (h = true -> (exists mn mx pose, s_leaf t mn mx pose /\ ahead mn mx pose /\ inside mn mx pose x) /\
     forall mn mx pose, s_leaf t mn mx pose -> ahead mn mx pose -> forall s, inside mn mx pose s -> x <= s).
Proof. intros t W S. destruct (build_ok t W S) as [ch [E B]]. exists ch. split; auto. apply (b_r _ _ B). Qed.
(** in terms of the region: started outside the region, the composite reports the first parameter at which the ray is in it *)
Theorem C37_first_point : forall t, s_wf t -> s_small t -> exists ch, build t = Ret ch /\
  forall o d t1 d0, (forall q, s_frame t q -> s_general_dir (m3mulv (tR (tinverse q)) d)) ->
  (forall mn mx pose s, s_leaf t mn mx pose -> s_placed mn mx pose (s_ray_at o (s_unit d) s) -> 0 < s) ->
  exists h x, ch_ray ch (ray_make o d) 0 t1 d0 = Ret (h, x) /\
  (h = true <-> exists s, 0 < s < t1 /\ s_in t (s_ray_at o (s_unit d) s)) /\
  (h = true -> 0 < x < t1 /\ s_in t (s_ray_at o (s_unit d) x) /\ forall s, s < x -> ~ s_in t (s_ray_at o (s_unit d) s)).
Proof.
  intros t W S. destruct (C37_nearest t W S) as [ch [E B]]. exists ch. split; auto. intros o d t1 d0 G POS.
  destruct (B o d 0 t1 d0 G) as [h [x [H1 [H2 H3]]]]. exists h, x. split; auto.
  assert (IN : forall s, s_in t (s_ray_at o (s_unit d) s) <-> exists mn mx pose, s_leaf t mn mx pose /\ s_placed mn mx pose (s_ray_at o (s_unit d) s))
    by (intros; apply s_in_leaf).
  split.
  - rewrite H2. split.
    + intros [mn [mx [pose [L [_ [s [A A']]]]]]]. exists s. split; [split; eauto|]. apply IN. eauto 10.
    + intros [s [[A A'] Q]]. apply IN in Q. destruct Q as [mn [mx [pose [L P]]]]. exists mn, mx, pose. split; auto. split; eauto.
  - intros Hh. destruct (H3 Hh) as [[mn [mx [pose [L [A P]]]]] M].
    apply H2 in Hh. destruct Hh as [mn' [mx' [pose' [L' [A' [s' [C C']]]]]]].
    assert (XS : x <= s') by (apply (M mn' mx' pose'); auto).
    split; [split; [eauto|lra]|]. split; [apply IN; eauto 10|].
    intros s LT Q. apply IN in Q. destruct Q as [mn2 [mx2 [pose2 [L2 P2]]]].
    assert (x <= s); [|lra]. apply (M mn2 mx2 pose2); auto. exists s. split; eauto.
Qed.
Lemma abs_ge : forall x y, y <= x \/ x <= - y -> 0 <= y -> y <= Rabs x.
Proof. intros x y H P. unfold Rabs. destruct Rcase_abs; destruct H; lra. Qed.
Example C37_nonvacuous : s_wf ex_tree /\ s_small ex_tree /\
  (forall q, s_frame ex_tree q -> s_general_dir (m3mulv (tR (tinverse q)) (V3 1 2 2))) /\
  exists s, 0 < s < 100 /\ s_in ex_tree (s_ray_at (V3 0 0 0) (s_unit (V3 1 2 2)) s).
Proof.
  destruct ex_tree_ok as [W S]. split; auto. split; auto.
  assert (N : forall a b c : R, a * a + b * b + c * c = 9 -> s_norm (V3 a b c) = 3).
  { intros a b c H. unfold s_norm, s_dot. cbn [vx vy vz]. rewrite H. replace 9 with (3 * 3) by ring. apply sqrt_square. lra. }
  assert (GD : forall a b c : R, (a = 1 \/ a = -1 \/ a = 2) -> (b = 1 \/ b = -1 \/ b = 2) -> (c = 1 \/ c = -1 \/ c = 2) ->
     a * a + b * b + c * c = 9 -> s_general_dir (V3 a b c)).
  { intros a b c A B C H. unfold s_general_dir, s_unit. rewrite N by auto. cbn [vx vy vz].
    split; [|split]; (apply Rle_trans with (1/3); [lra|]; apply abs_ge; [|lra]);
    repeat match goal with H : _ \/ _ |- _ => destruct H end; subst; lra. }
  split.
  - clear W S. intros q F.
    assert (K : forall l q, s_frame (TComp l) q -> q = tidentity \/ exists t pose q', In (t, pose) l /\ s_frame t q' /\ q = tmul pose q')
      by (intros l x H; inversion H; subst; eauto 10).
    assert (KB : forall mn mx q, s_frame (TBox mn mx) q -> q = tidentity) by (intros ? ? ? H; inversion H; auto).
    destruct (K _ _ F) as [-> | [t [pose [q' [I [F' ->]]]]]].
    all: assert (TI : forall a : trans3 R, tR (tinverse a) = m3transpose (tR a)) by reflexivity.
    all: assert (TM : forall a b : trans3 R, tR (tmul a b) = m3mul (tR a) (tR b)) by reflexivity.
    all: assert (MI : forall a : mat3 R, m3mul a m3identity = a) by (intros [? ? ? ? ? ? ? ? ?]; unmath; f_equal; ring).
    all: rewrite TI, ?TM. all: change (tR (tidentity : trans3 R)) with (m3identity : mat3 R).
    { replace (m3mulv (m3transpose m3identity) (V3 1 2 2)) with (V3 1 2 2) by (apply V3_eq; unmath; ring). apply GD; auto; lra. }
    destruct I as [[= <- <-]|[[= <- <-]|[]]].
    + apply KB in F'. subst q'. change (tR (tidentity : trans3 R)) with (m3identity : mat3 R). rewrite MI.
      replace (m3mulv (m3transpose m3identity) (V3 1 2 2)) with (V3 1 2 2) by (apply V3_eq; unmath; ring). apply GD; auto; lra.
    + assert (ER : m3mulv (m3transpose (tR ex_rot)) (V3 1 2 2) = V3 2 (-1) 2) by (unfold ex_rot; cbn [tR]; apply V3_eq; unmath; ring).
      destruct (K _ _ F') as [-> | [t [pose [q'' [I [F'' ->]]]]]].
      { change (tR (tidentity : trans3 R)) with (m3identity : mat3 R). rewrite MI, ER. apply GD; auto; lra. }
      destruct I as [[= <- <-]|[]]. apply KB in F''. subst q''. rewrite TM. cbn [tR].
      change (tR (tidentity : trans3 R)) with (m3identity : mat3 R). rewrite !MI, ER. apply GD; auto; lra.
  - exists 3. split; [lra|].
    replace (s_ray_at (V3 0 0 0) (s_unit (V3 1 2 2)) 3) with (tapply tidentity (V3 1 2 2)).
    + eapply in_comp; [left; reflexivity|]. constructor. unfold s_in_box. cbn [vx vy vz]. lra.
    + rewrite tapply_id. unfold s_ray_at, s_unit. rewrite N by ring. cbn [vx vy vz]. apply V3_eq; field.
Qed.
Print Assumptions C37_nearest.
Print Assumptions C37_first_point.

(** ** C38 *)
Theorem C38_ball : forall t, s_wf t -> s_small t -> exists ch, build t = Ret ch /\
  forall p r, exists b, ch_sphere ch p r = Ret b /\
    (0 < r -> (b = true <-> exists q, s_in t q /\ s_dist p q <= r)) /\
    (r <= 0 -> (b = true <-> s_in t p)).
Proof.
  intros t W S. destruct (build_ok t W S) as [ch [E B]]. exists ch. split; auto. intros p r.
  destruct (b_b _ _ B p r) as [b [E' K]]. exists b. split; auto. destruct (Rle_dec r 0).
  - split; [intros; lra|auto].
  - split; [|intros; lra]. intros P. rewrite K.
    assert (D : forall q, s_dist2 p q <= r * r <-> s_dist p q <= r).
    { intros q. assert (P2 : 0 <= s_dist2 p q).
      { unfold s_dist2. pose proof (pow2_ge_0 (vx p - vx q)). pose proof (pow2_ge_0 (vy p - vy q)). pose proof (pow2_ge_0 (vz p - vz q)). lra. }
      unfold s_dist. split; intros G.
      - rewrite <- (sqrt_square r) by lra. apply sqrt_le_1_alt. auto.
      - rewrite <- (sqrt_sqrt (s_dist2 p q)) by auto. apply Rmult_le_compat; auto using sqrt_pos. }
    split; intros [q [Q1 Q2]]; exists q; split; auto; apply D; auto.
Qed.
Example C38_nonvacuous : exists q, s_in ex_tree q /\ s_dist (V3 8 (-2) 5) q <= 3.
Proof.
  exists (V3 8 1 5). split; [apply C36_nonvacuous|]. unfold s_dist, s_dist2. cbn [vx vy vz].
  replace ((8-8)^2 + (-2-1)^2 + (5-5)^2) with (3*3) by ring. rewrite sqrt_square; lra.
Qed.
Print Assumptions C38_ball.

(** ** C39: any children (boxes, composites or arbitrary shapes) whose mesh is well formed *)
(** the mesh has the triangles l, and getTriangles reports them (C12: true of every mesh made through the API) *)
Definition s_mesh_is (m : mesh R) (l : list (vec3 R * vec3 R * vec3 R)) : Prop :=
  s_soup (m_points m) (map idx (m_tris m)) = Some l /\
  exists ts m', getTriangles m = Ret (ts, m') /\ map tup ts = l.
Definition s_move (pose : trans3 R) (l : list (vec3 R * vec3 R * vec3 R)) :=
  map (fun '(a, b, c) => (tapply pose a, tapply pose b, tapply pose c)) l.
Theorem C39_bookkeeping : forall (adds : list (child R * trans3 R)) soups,
  Forall2 (fun cp l => s_mesh_is (ch_mesh (fst cp)) l) adds soups ->
  (N.of_nat (list_sum (map (fun cp => length (m_points (ch_mesh (fst cp)))) adds)) < 2^32)%N ->
  let all := concat (map (fun '((_, pose), l) => s_move pose l) (combine adds soups)) in
  let cs := s_corners all in
  exists c, comp_adds comp_new adds = Ret c /\
    s_soup (m_points (c_mesh c)) (map idx (m_tris (c_mesh c))) = Some all /\
    (forall q, In q cs -> s_in_box (b_min (comp_bbox c)) (b_max (comp_bbox c)) q) /\
    (cs <> [] -> (forall q, In q cs -> s_in_box (V3 (-10^10) (-10^10) (-10^10)) (V3 (10^10) (10^10) (10^10)) q) ->
       (exists q, In q cs /\ vx q = vx (b_min (comp_bbox c))) /\ (exists q, In q cs /\ vx q = vx (b_max (comp_bbox c))) /\
       (exists q, In q cs /\ vy q = vy (b_min (comp_bbox c))) /\ (exists q, In q cs /\ vy q = vy (b_max (comp_bbox c))) /\
       (exists q, In q cs /\ vz q = vz (b_min (comp_bbox c))) /\ (exists q, In q cs /\ vz q = vz (b_max (comp_bbox c)))) /\
    (forall q, In q cs -> s_norm q <= comp_maxRadius c) /\
    (comp_maxRadius c = 0 \/ exists q, In q cs /\ s_norm q = comp_maxRadius c).
Proof.
  intros adds soups F S all cs.
  pose proof (comp_adds_spec adds soups comp_new [] F eq_refl) as X.
  change (length (m_points (c_mesh (comp_new : comp R)))) with O in X. rewrite Nat.add_0_l in X. specialize (X S).
  cbv zeta in X. destruct X as [c [E [_ [E2 [E3 [E4 [E5 E6]]]]]]].
  cbn [app] in E2. cbn [comp_new c_r c_min c_max vx vy vz] in E3, E4, E5.
  change (concat (map (fun '((_, pose), s) => map3 (tapply pose) s) (combine adds soups))) with all in *. fold cs in E3, E4, E5.
  exists c. split; auto. split; [exact E2|].
  unfold comp_bbox, comp_maxRadius.
  assert (NE : forall q, In q cs -> c_bb c = box_make (c_min c) (c_max c)).
  { intros q Q. apply E6. intros ->. cbn in Q. contradiction. }
  pose proof (rminf_spec vx cs (nofZ 10000000000)) as [X1 [X2 X3]]. pose proof (rminf_spec vy cs (nofZ 10000000000)) as [Y1 [Y2 Y3]].
  pose proof (rminf_spec vz cs (nofZ 10000000000)) as [Z1 [Z2 Z3]]. pose proof (rmaxf_spec vx cs (nopp (nofZ 10000000000))) as [P1 [P2 P3]].
  pose proof (rmaxf_spec vy cs (nopp (nofZ 10000000000))) as [Q1 [Q2 Q3]]. pose proof (rmaxf_spec vz cs (nopp (nofZ 10000000000))) as [R1 [R2 R3]].
  split.
  { intros q Q. rewrite (NE q Q). cbn [box_make b_min b_max]. rewrite E4, E5. unfold s_in_box. cbn [vx vy vz].
    split; [split; auto|]. split; [split; auto|split; auto]. }
  split.
  { intros N LIM. destruct cs as [|q0 cs'] eqn:CS; [congruence|]. rewrite <- CS in *.
    assert (I0 : In q0 cs) by (rewrite CS; left; auto). rewrite (NE q0 I0). cbn [box_make b_min b_max]. rewrite E4, E5. cbn [vx vy vz].
    assert (BIG : (nofZ 10000000000 : R) = 10^10). { cbn [nofZ NumR]. lra. }
    assert (L0 := LIM q0 I0). unfold s_in_box in L0. cbn [vx vy vz] in L0. cbn [nopp NumR] in *. rewrite BIG in *.
    assert (MIN : forall f, -10^10 <= f q0 <= 10^10 -> (rminf f cs (10^10) = 10^10 \/ exists q, In q cs /\ f q = rminf f cs (10^10)) ->
        (forall q, In q cs -> rminf f cs (10^10) <= f q) -> exists q, In q cs /\ f q = rminf f cs (10^10)).
    { intros f L [D|D] M; auto. exists q0. split; auto. specialize (M q0 I0). lra. }
    assert (MAX : forall f, -10^10 <= f q0 <= 10^10 -> (rmaxf f cs (-10^10) = -10^10 \/ exists q, In q cs /\ f q = rmaxf f cs (-10^10)) ->
        (forall q, In q cs -> f q <= rmaxf f cs (-10^10)) -> exists q, In q cs /\ f q = rmaxf f cs (-10^10)).
    { intros f L [D|D] M; auto. exists q0. split; auto. specialize (M q0 I0). lra. }
    destruct L0 as [L1 [L2 L3]].
    split; [apply MIN; auto|]. split; [apply MAX; auto|]. split; [apply MIN; auto|]. split; [apply MAX; auto|]. split; [apply MIN; auto|apply MAX; auto]. }
  rewrite E3. destruct (rmaxf_spec vlength cs n0) as [A [B C]]. split.
  - intros q Q. exact (B q Q).
  - destruct C as [C|[q [Q C]]]; [left; exact C|right; exists q; auto].
Qed.
(** boxes and composites of boxes have well formed meshes *)
Lemma C39_children : forall t ch, s_wf t -> s_small t -> build t = Ret ch -> exists l, s_mesh_is (ch_mesh ch) l.
Proof.
  intros t ch W S E. destruct (build_ok t W S) as [ch' [E' B]]. rewrite E in E'. injection E' as <-.
  destruct (b_soup _ _ B) as [l [L _]]. exists l. split; auto. apply reads_inv; auto. apply (b_cache _ _ B).
Qed.
Example C39_nonvacuous : exists l, Forall2 (fun cp l => s_mesh_is (ch_mesh (fst cp)) l)
  [(box_child (box_make (V3 0 0 0) (V3 1 1 1)), ex_rot)] [l] /\ length l = 12%nat.
Proof.
  destruct (box_soup (V3 0 0 0) (V3 1 1 1)) as [l [L E]].
  assert (S : csoup (b_mesh (box_make (V3 0 0 0) (V3 1 1 1))) = Some l).
  { unfold csoup. rewrite box_make_points, box_make_tris. exact L. }
  exists l. split.
  - constructor; [|constructor]. cbn [fst box_child ch_mesh]. split; auto. apply reads_inv; auto. apply gen_cache.
  - rewrite E. reflexivity.
Qed.
Print Assumptions C39_bookkeeping.
