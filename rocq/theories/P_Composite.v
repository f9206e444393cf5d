(** Composite shapes over the reals: arbitrary trees of boxes and composites. *)
From Coq Require Import ZArith NArith List Bool Lia Reals Lra Psatz.
From Verif Require Import Num MathTypes Outcome Mesh Box Composite Spec SpecComposite NumOrd P_Tac P_Math P_Rot P_Mesh P_MeshGeo P_Box P_BoxMesh.
Import ListNotations.
Local Open Scope R_scope.

Fixpoint ctree_ind' (P : ctree R -> Prop) (HB : forall mn mx, P (TBox mn mx))
  (HC : forall l, (forall t pose, In (t, pose) l -> P t) -> P (TComp l)) (t : ctree R) : P t :=
  match t with
  | TBox mn mx => HB mn mx
  | TComp l => HC l ((fix go (l : list (ctree R * trans3 R)) : forall t pose, In (t, pose) l -> P t :=
      match l with
      | [] => fun t pose (I : In (t, pose) []) => match I with end
      | (t', p') :: r => fun t pose I =>
          match I with
          | or_introl E => eq_ind t' P (ctree_ind' P HB HC t') t (f_equal fst E)
          | or_intror I' => go r t pose I'
          end
      end) l)
  end.

Lemma s_in_leaf : forall t p, s_in t p <-> exists mn mx pose, s_leaf t mn mx pose /\ s_placed mn mx pose p.
Proof.
  intros t p. split.
  - induction 1 as [mn mx p H|l t pose q I H IH].
    + exists mn, mx, tidentity. split; [constructor|]. exists p. split; auto. rewrite tapply_id. auto.
    + destruct IH as [mn [mx [f [L [y [Y ->]]]]]]. exists mn, mx, (tmul pose f). split; [econstructor; eauto|].
      exists y. split; auto. rewrite tapply_tmul. auto.
  - intros [mn [mx [pose [L [q [Q ->]]]]]]. revert q Q. induction L as [mn mx|l t pose mn mx f I L IH]; intros q Q.
    + rewrite tapply_id. constructor; auto.
    + rewrite tapply_tmul. econstructor; eauto.
Qed.

(** *** hulls *)
Lemma hull_incl : forall a b p, incl a b -> s_hull a p -> s_hull b p.
Proof. intros a b p I H u v w k K. apply H. intros q Q. apply K, I, Q. Qed.
Lemma hull_point : forall cs p, In p cs -> s_hull cs p.
Proof. intros cs p I a b c k K. apply K, I. Qed.
Lemma hull_map : forall t cs p, s_hull cs p -> s_hull (map (tapply t) cs) (tapply t p).
Proof.
  intros t cs p H a b c k K. destruct t as [[xx xy xz yx yy yz zx zy zz] [tx ty tz]].
  assert (E : forall q : vec3 R, a * vx (tapply (T3 (M3 xx xy xz yx yy yz zx zy zz) (V3 tx ty tz)) q) +
     b * vy (tapply (T3 (M3 xx xy xz yx yy yz zx zy zz) (V3 tx ty tz)) q) +
     c * vz (tapply (T3 (M3 xx xy xz yx yy yz zx zy zz) (V3 tx ty tz)) q) + k =
     (a*xx + b*yx + c*zx) * vx q + (a*xy + b*yy + c*zy) * vy q + (a*xz + b*yz + c*zz) * vz q + (a*tx + b*ty + c*tz + k)).
  { intros q. unmath. ring. }
  rewrite E. apply H. intros q Q. rewrite <- E. apply K. apply in_map. auto.
Qed.
Lemma hull_box : forall cs p lo hi, s_hull cs p -> (forall q, In q cs -> s_in_box lo hi q) -> s_in_box lo hi p.
Proof.
  intros cs p lo hi H B.
  assert (U : forall a b c k, (forall q, In q cs -> a * vx q + b * vy q + c * vz q + k <= 0) -> a * vx p + b * vy p + c * vz p + k <= 0) by (exact H).
  pose proof (U 1 0 0 (- vx hi)) as X1. pose proof (U (-1) 0 0 (vx lo)) as X2.
  pose proof (U 0 1 0 (- vy hi)) as Y1. pose proof (U 0 (-1) 0 (vy lo)) as Y2.
  pose proof (U 0 0 1 (- vz hi)) as Z1. pose proof (U 0 0 (-1) (vz lo)) as Z2.
  unfold s_in_box in *.
  assert (forall q, In q cs -> 1 * vx q + 0 * vy q + 0 * vz q + - vx hi <= 0) as A1 by (intros q Q; specialize (B q Q); lra).
  assert (forall q, In q cs -> -1 * vx q + 0 * vy q + 0 * vz q + vx lo <= 0) as A2 by (intros q Q; specialize (B q Q); lra).
  assert (forall q, In q cs -> 0 * vx q + 1 * vy q + 0 * vz q + - vy hi <= 0) as A3 by (intros q Q; specialize (B q Q); lra).
  assert (forall q, In q cs -> 0 * vx q + -1 * vy q + 0 * vz q + vy lo <= 0) as A4 by (intros q Q; specialize (B q Q); lra).
  assert (forall q, In q cs -> 0 * vx q + 0 * vy q + 1 * vz q + - vz hi <= 0) as A5 by (intros q Q; specialize (B q Q); lra).
  assert (forall q, In q cs -> 0 * vx q + 0 * vy q + -1 * vz q + vz lo <= 0) as A6 by (intros q Q; specialize (B q Q); lra).
  specialize (X1 A1). specialize (X2 A2). specialize (Y1 A3). specialize (Y2 A4). specialize (Z1 A5). specialize (Z2 A6). lra.
Qed.
Lemma box_hull : forall mn mx l p, s_soup (corners8 mn mx) box_tris = Some l -> s_in_box mn mx p -> s_hull (s_corners l) p.
Proof.
  intros mn mx l p L P a b c k K. apply (affine_le mn mx p a b c k 0 P).
  intros q Q. apply K. clear K. destruct (box_soup mn mx) as [l' [L' E]]. rewrite L in L'. injection L' as <-.
  rewrite E. clear E L. cbn [corners8 s_corners flat_map app In] in *. tauto.
Qed.

(** *** the triangle loop of addShape *)
Definition rmaxf (f : vec3 R -> R) (cs : list (vec3 R)) (a : R) : R := fold_left (fun a q => nmax a (f q)) cs a.
Definition rminf (f : vec3 R -> R) (cs : list (vec3 R)) (a : R) : R := fold_left (fun a q => nmin a (f q)) cs a.
Lemma comp_tri_fold : forall pose ts r mn mx,
  fold_left (comp_tri pose) ts (r, mn, mx) =
  let cs := map (tapply pose) (s_corners (map tup ts)) in
  (rmaxf vlength cs r, V3 (rminf vx cs (vx mn)) (rminf vy cs (vy mn)) (rminf vz cs (vz mn)),
   V3 (rmaxf vx cs (vx mx)) (rmaxf vy cs (vy mx)) (rmaxf vz cs (vz mx))).
Proof.
  intros pose. induction ts as [|[a b c] ts IH]; intros r mn mx.
  - destruct mn, mx. reflexivity.
  - cbn [fold_left]. unfold comp_tri at 2. cbn [tp1 tp2 tp3]. rewrite IH. cbv zeta. reflexivity.
Qed.
Lemma rmaxf_spec : forall f cs a, a <= rmaxf f cs a /\ (forall q, In q cs -> f q <= rmaxf f cs a) /\
  (rmaxf f cs a = a \/ exists q, In q cs /\ f q = rmaxf f cs a).
Proof.
  intros f. induction cs as [|q cs IH]; intros a.
  - cbn. split; [lra|]. split; [intros ? []|auto].
  - change (rmaxf f (q :: cs) a) with (rmaxf f cs (nmax a (f q))). rewrite nmax_R.
    destruct (IH (Rmax a (f q))) as [A [B C]]. pose proof (Rmax_l a (f q)). pose proof (Rmax_r a (f q)).
    split; [lra|]. split.
    + intros q' [<-|Q]; auto. lra.
    + destruct C as [C|[q' [Q C]]].
      * destruct (Rle_dec a (f q)) as [L|L].
        { right. exists q. split; [left; auto|]. rewrite C, Rmax_right; auto. }
        { left. rewrite C, Rmax_left; auto. lra. }
      * right. exists q'. split; [right; auto|auto].
Qed.
Lemma rminf_spec : forall f cs a, rminf f cs a <= a /\ (forall q, In q cs -> rminf f cs a <= f q) /\
  (rminf f cs a = a \/ exists q, In q cs /\ f q = rminf f cs a).
Proof.
  intros f. induction cs as [|q cs IH]; intros a.
  - cbn. split; [lra|]. split; [intros ? []|auto].
  - change (rminf f (q :: cs) a) with (rminf f cs (nmin a (f q))). rewrite nmin_R.
    destruct (IH (Rmin a (f q))) as [A [B C]]. pose proof (Rmin_l a (f q)). pose proof (Rmin_r a (f q)).
    split; [lra|]. split.
    + intros q' [<-|Q]; auto. lra.
    + destruct C as [C|[q' [Q C]]].
      * destruct (Rle_dec a (f q)) as [L|L].
        { left. rewrite C, Rmin_left; auto. }
        { right. exists q. split; [left; auto|]. rewrite C, Rmin_right; auto. lra. }
      * right. exists q'. split; [right; auto|auto].
Qed.
Lemma rmaxf_app : forall f a b x, rmaxf f (a ++ b) x = rmaxf f b (rmaxf f a x).
Proof. intros. apply fold_left_app. Qed.
Lemma rminf_app : forall f a b x, rminf f (a ++ b) x = rminf f b (rminf f a x).
Proof. intros. apply fold_left_app. Qed.

(** *** bookkeeping of one addShape *)
Definition csoup (m : mesh R) := s_soup (m_points m) (map idx (m_tris m)).
Definition map3 (f : vec3 R -> vec3 R) (l : list (vec3 R * vec3 R * vec3 R)) := map (fun '(a, b, c) => (f a, f b, f c)) l.
Lemma corners_map3 : forall f l, s_corners (map3 f l) = map f (s_corners l).
Proof. induction l as [|[[a b] c] l IH]; auto. change (f a :: f b :: f c :: s_corners (map3 f l) = f a :: f b :: f c :: map f (s_corners l)). rewrite IH. reflexivity. Qed.
Lemma corners_app : forall a b : list (vec3 R * vec3 R * vec3 R), s_corners (a ++ b) = s_corners a ++ s_corners b.
Proof. intros. unfold s_corners. apply flat_map_app. Qed.

Lemma comp_add_spec : forall (c : comp R) ch pose lc lch,
  csoup (c_mesh c) = Some lc -> csoup (ch_mesh ch) = Some lch ->
  (exists ts m', getTriangles (ch_mesh ch) = Ret (ts, m') /\ map tup ts = lch) ->
  (N.of_nat (length (m_points (c_mesh c)) + length (m_points (ch_mesh ch))) < 2^32)%N ->
  exists c', comp_add c ch pose = Ret c' /\
    c_shapes c' = c_shapes c ++ [(ch, tinverse pose)] /\
    csoup (c_mesh c') = Some (lc ++ map3 (tapply pose) lch) /\
    cache_inv (c_mesh c') /\
    length (m_points (c_mesh c')) = (length (m_points (c_mesh c)) + length (m_points (ch_mesh ch)))%nat /\
    (let cs := map (tapply pose) (s_corners lch) in
     c_r c' = rmaxf vlength cs (c_r c) /\
     c_min c' = V3 (rminf vx cs (vx (c_min c))) (rminf vy cs (vy (c_min c))) (rminf vz cs (vz (c_min c))) /\
     c_max c' = V3 (rmaxf vx cs (vx (c_max c))) (rmaxf vy cs (vy (c_max c))) (rmaxf vz cs (vz (c_max c)))) /\
    c_bb c' = box_make (c_min c') (c_max c').
Proof.
  intros c ch pose lc lch LC LCH I S. unfold comp_add.
  destruct I as [ts [m' [E G]]]. rewrite E. cbn [obind fst].
  rewrite comp_tri_fold. cbv zeta. rewrite G. eexists. split; [reflexivity|].
  cbn [c_shapes c_mesh c_r c_min c_max c_bb].
  split; [reflexivity|]. split.
  { unfold csoup. apply mesh_add_soup; auto.
    - cbn [getTransformed m_points]. rewrite map_length. auto.
    - cbn [getTransformed m_points m_tris]. rewrite soup_map. unfold csoup in LCH. rewrite LCH. reflexivity. }
  split; [apply inv_invalidate|]. split.
  { unfold mesh_add. cbn [invalidate m_points getTransformed]. rewrite app_length, map_length. auto. }
  split; [|reflexivity]. auto.
Qed.

Lemma reads_inv : forall m l, cache_inv m -> csoup m = Some l -> exists ts m', getTriangles m = Ret (ts, m') /\ map tup ts = l.
Proof.
  intros m l I L. pose proof (getTriangles_spec _ I) as G. unfold csoup in L.
  destruct (getTriangles m) as [[ts m']| | |]; try contradiction.
  - destruct G as [G _]. rewrite L in G. injection G as G. eauto.
  - congruence.
Qed.

(** any sequence of addShape calls *)
Lemma comp_adds_spec : forall l ls (c : comp R) lc,
  Forall2 (fun cp s => csoup (ch_mesh (fst cp)) = Some s /\
             exists ts m', getTriangles (ch_mesh (fst cp)) = Ret (ts, m') /\ map tup ts = s) l ls ->
  csoup (c_mesh c) = Some lc ->
  (N.of_nat (length (m_points (c_mesh c)) + list_sum (map (fun cp => length (m_points (ch_mesh (fst cp)))) l)) < 2^32)%N ->
  let soups := concat (map (fun '((ch, pose), s) => map3 (tapply pose) s) (combine l ls)) in
  let cs := s_corners soups in
  exists c', comp_adds c l = Ret c' /\
    c_shapes c' = c_shapes c ++ map (fun '(ch, pose) => (ch, tinverse pose)) l /\
    csoup (c_mesh c') = Some (lc ++ soups) /\
    c_r c' = rmaxf vlength cs (c_r c) /\
    c_min c' = V3 (rminf vx cs (vx (c_min c))) (rminf vy cs (vy (c_min c))) (rminf vz cs (vz (c_min c))) /\
    c_max c' = V3 (rmaxf vx cs (vx (c_max c))) (rmaxf vy cs (vy (c_max c))) (rmaxf vz cs (vz (c_max c))) /\
    (l <> [] -> c_bb c' = box_make (c_min c') (c_max c')).
Proof.
  intros l ls c lc F. revert c lc. induction F as [|[ch pose] s l ls [H1 H2] F IH]; intros c lc L S.
  - cbv zeta. exists c. cbn [comp_adds map combine concat s_corners flat_map] in *. cbn.
    rewrite !app_nil_r. destruct (c_min c), (c_max c). repeat split; auto. congruence.
  - cbn [fst] in *. cbn [map list_sum] in S. cbn [fst] in S.
    change (list_sum (length (m_points (ch_mesh ch)) :: map (fun cp => length (m_points (ch_mesh (fst cp)))) l))
      with (length (m_points (ch_mesh ch)) + list_sum (map (fun cp => length (m_points (ch_mesh (fst cp)))) l))%nat in S.
    destruct (comp_add_spec c ch pose lc s L H1 H2) as [c1 [E [E1 [E2 [_ [E4 [E5 E6]]]]]]]; [lia|].
    cbv zeta in E5. destruct E5 as [ER [EMN EMX]].
    destruct (IH c1 _ E2) as [c' [G [G1 [G2 [G3 [G4 [G5 G6]]]]]]]; [rewrite E4; lia|].
    assert (BB : c_bb c' = box_make (c_min c') (c_max c')).
    { destruct l as [|a l]; [cbn in G; injection G as <-; auto|apply G6; discriminate]. }
    cbv zeta. exists c'. cbn [comp_adds]. rewrite E. cbn [obind]. split; auto.
    cbn [combine map concat]. rewrite corners_app, corners_map3.
    split; [rewrite G1, E1, <- app_assoc; reflexivity|]. split; [rewrite G2, <- app_assoc; reflexivity|].
    rewrite !rmaxf_app, !rminf_app. rewrite G3, G4, G5, ER, EMN, EMX. cbn [vx vy vz].
    repeat split; auto. intros _. rewrite BB, G4, G5, EMN, EMX. reflexivity.
Qed.

(** *** rays and rigid motions *)
Lemma norm_nonneg : forall v, 0 <= s_norm v.
Proof. intros. apply sqrt_pos. Qed.
Lemma norm_rot : forall m v, rotation m -> s_norm (m3mulv m v) = s_norm v.
Proof. intros. unfold s_norm. rewrite rot_dot; auto. Qed.
Lemma general_nonzero : forall d, s_general_dir d -> s_norm d <> 0.
Proof.
  intros d [H _] E. unfold s_unit in H. rewrite E in H. cbn [vx] in H. unfold Rdiv in H. rewrite Rinv_0, Rmult_0_r, Rabs_R0 in H. lra.
Qed.
Lemma norm_unit : forall d, s_norm d <> 0 -> s_norm (s_unit d) = 1.
Proof.
  intros d H. assert (P : 0 < s_norm d) by (pose proof (norm_nonneg d); lra).
  assert (E : s_dot (s_unit d) (s_unit d) = 1).
  { unfold s_unit, s_dot. cbn [vx vy vz].
    replace (vx d / s_norm d * (vx d / s_norm d) + vy d / s_norm d * (vy d / s_norm d) + vz d / s_norm d * (vz d / s_norm d))
      with ((vx d * vx d + vy d * vy d + vz d * vz d) / (s_norm d * s_norm d)) by (field; auto).
    fold (s_dot d d). unfold s_norm at 1 2. rewrite sqrt_sqrt; [|pose proof (norm2_nonneg d); unfold s_norm2 in *; auto].
    field. intros Z. apply H. unfold s_norm. rewrite Z. apply sqrt_0. }
  unfold s_norm at 1. rewrite E. apply sqrt_1.
Qed.
Lemma unit_unit : forall v, s_norm v = 1 -> s_unit v = v.
Proof. intros v H. unfold s_unit. rewrite H. destruct v as [a b c]. cbn [vx vy vz]. apply V3_eq; field. Qed.
Lemma unit_rot : forall m d, rotation m -> s_norm d <> 0 -> s_unit (m3mulv m (s_unit d)) = m3mulv m (s_unit d).
Proof. intros m d H N. apply unit_unit. rewrite norm_rot by auto. apply norm_unit; auto. Qed.
Lemma unit_rot2 : forall m d, rotation m -> m3mulv m (s_unit d) = s_unit (m3mulv m d).
Proof.
  intros m d H. unfold s_unit. rewrite norm_rot by auto. destruct m as [a b c e f g h i j], d as [x y z]. generalize (s_norm (V3 x y z)). intros k. unmath. apply V3_eq; unfold Rdiv; ring.
Qed.
Lemma ray_rigid : forall t o u s, tapply t (s_ray_at o u s) = s_ray_at (tapply t o) (m3mulv (tR t) u) s.
Proof. intros [[xx xy xz yx yy yz zx zy zz] [tx ty tz]] [o1 o2 o3] [u1 u2 u3] s. unfold s_ray_at. unmath. apply V3_eq; ring. Qed.

(** slab test without assuming t0 < t1 *)
Lemma box_entry : forall (b : box R) o d t0 t1 d0, s_ordered (b_min b) (b_max b) -> s_general_dir d ->
  let inside t := s_in_box (b_min b) (b_max b) (s_ray_at o (s_unit d) t) in
  exists h x, box_ray b (ray_make o d) t0 t1 d0 = (h, x) /\
  (h = true <-> (exists s, s < t1 /\ inside s) /\ (exists s, t0 < s /\ inside s)) /\
  (h = true -> inside x /\ forall s, inside s -> x <= s).
Proof.
  intros b o d t0 t1 d0 O D inside.
  pose proof (ray_box_slabs b o d O D) as [lo [hi [IB BR]]].
  destruct (BR t0 t1 d0) as [[L E]|[L E]]; do 2 eexists; (split; [exact E|]).
  - split.
    + rewrite andb_true_iff, !Rltb_true. split.
      * intros [A B]. split; [exists lo|exists hi]; split; auto; apply IB; lra.
      * intros [[s [A A']] [s' [B B']]]. apply IB in A', B'. lra.
    + intros _. split; [apply IB; lra|]. intros s H. apply IB in H. lra.
  - split; [|discriminate]. split; [discriminate|]. intros [[s [A A']] _]. apply IB in A'. lra.
Qed.

(** *** what a built shape does *)
Definition rspec (t : ctree R) (ch : child R) : Prop :=
  forall o d t0 t1 d0, (forall q, s_frame t q -> s_general_dir (m3mulv (tR (tinverse q)) d)) ->
  let inside mn mx pose s := s_placed mn mx pose (s_ray_at o (s_unit d) s) in
  let ahead mn mx pose := exists s, t0 < s /\ inside mn mx pose s in
  exists h x, ch_ray ch (ray_make o d) t0 t1 d0 = Ret (h, x) /\
  (h = true <-> exists mn mx pose, s_leaf t mn mx pose /\ ahead mn mx pose /\ exists s, s < t1 /\ inside mn mx pose s) /\
  (h = true -> (exists mn mx pose, s_leaf t mn mx pose /\ ahead mn mx pose /\ inside mn mx pose x) /\
     forall mn mx pose, s_leaf t mn mx pose -> ahead mn mx pose -> forall s, inside mn mx pose s -> x <= s).
Definition cspec (t : ctree R) (ch : child R) : Prop :=
  forall p, exists b, ch_contains ch p = Ret b /\ (b = true <-> s_in t p).
Definition bspec (t : ctree R) (ch : child R) : Prop :=
  forall p r, exists b, ch_sphere ch p r = Ret b /\
    (b = true <-> if Rle_dec r 0 then s_in t p else exists q, s_in t q /\ s_dist2 p q <= r * r).
Record built (t : ctree R) (ch : child R) : Prop := {
  b_c : cspec t ch; b_b : bspec t ch; b_r : rspec t ch;
  b_cache : cache_inv (ch_mesh ch);
  b_size : length (m_points (ch_mesh ch)) = (8 * s_nboxes t)%nat;
  b_soup : exists l, csoup (ch_mesh ch) = Some l /\ forall p, s_in t p -> s_hull (s_corners l) p
}.

Lemma gen_cache : forall mn mx (m : mesh R), cache_inv (generate_mesh mn mx m).
Proof. intros. rewrite gen_clean, generate_eq. unfold cache_inv, clean. cbn [m_r m_r2 m_tc]. auto. Qed.

Lemma built_box : forall mn mx, s_ordered mn mx -> built (TBox mn mx) (box_child (box_make mn mx)).
Proof.
  intros mn mx O. constructor.
  - intros p. eexists. split; [reflexivity|]. unfold box_contains. rewrite !andb_true_iff. cbn [nleb NumR box_make b_min b_max]. rewrite !Rleb_true.
    split; [intros; constructor; unfold s_in_box; tauto|]. intros H. inversion H; subst. unfold s_in_box in *. tauto.
  - intros p r. eexists. split; [reflexivity|]. rewrite (box_sphere_R (box_make mn mx)) by exact O. cbn [box_make b_min b_max].
    destruct Rle_dec.
    + split; [intros; constructor; auto|intros H; inversion H; auto].
    + split; intros [q [Q1 Q2]]; exists q; split; auto; [constructor; auto|inversion Q1; auto].
  - intros o d t0 t1 d0 G inside ahead.
    assert (D : s_general_dir d).
    { specialize (G tidentity (fr_here _)). replace (m3mulv (tR (tinverse tidentity)) d) with d in G; auto.
      destruct d as [a b c]. unmath. apply V3_eq; ring. }
    destruct (box_entry (box_make mn mx) o d t0 t1 d0 O D) as [h [x [E [H1 H2]]]]. cbn [box_make b_min b_max] in H1, H2.
    assert (P : forall s, inside mn mx tidentity s <-> s_in_box mn mx (s_ray_at o (s_unit d) s)).
    { intros s. unfold inside, s_placed. split.
      - intros [q [Q ->]]. rewrite tapply_id. auto.
      - intros Q. exists (s_ray_at o (s_unit d) s). split; auto. rewrite tapply_id. auto. }
    exists h, x. split; [cbn [box_child ch_ray]; rewrite E; reflexivity|]. split.
    + rewrite H1. split.
      * intros [[s [A A']] [s' [B B']]]. exists mn, mx, tidentity. split; [constructor|].
        split; [exists s'; split; auto; apply P; auto|exists s; split; auto; apply P; auto].
      * intros [mn' [mx' [pose [L [[s' [B B']] [s [A A']]]]]]]. inversion L; subst.
        split; [exists s|exists s']; split; auto; apply P; auto.
    + intros Hh. destruct (H2 Hh) as [X1 X2]. apply H1 in Hh. destruct Hh as [_ [s' [B B']]]. split.
      * exists mn, mx, tidentity. split; [constructor|]. split; [exists s'; split; auto; apply P; auto|apply P; auto].
      * intros mn' mx' pose L _ s S. inversion L; subst. apply X2, P, S.
  - apply gen_cache.
  - cbn [box_child ch_mesh]. rewrite box_make_points. reflexivity.
  - destruct (box_soup mn mx) as [l [L _]]. exists l. split.
    + unfold csoup. cbn [box_child ch_mesh]. rewrite box_make_points, box_make_tris. exact L.
    + intros p P. inversion P; subst. eapply box_hull; eauto.
Qed.

(** state of a composite after some addShape calls *)
Record cinv (l : list (ctree R * trans3 R)) (c : comp R) : Prop := {
  i_shapes : Forall2 (fun tp ci => built (fst tp) (fst ci) /\ rigid (snd tp) /\ snd ci = tinverse (snd tp)) l (c_shapes c);
  i_cache : cache_inv (c_mesh c);
  i_size : length (m_points (c_mesh c)) = (8 * s_nboxes (TComp l))%nat;
  i_soup : exists s, csoup (c_mesh c) = Some s /\ (forall p, s_in (TComp l) p -> s_hull (s_corners s) p) /\
           (forall q, In q (s_corners s) -> s_in_box (c_min c) (c_max c) q);
  i_bb : l <> [] -> c_bb c = box_make (c_min c) (c_max c)
}.

Lemma nboxes_app : forall a b, s_nboxes (TComp (a ++ b)) = (s_nboxes (TComp a) + s_nboxes (TComp b))%nat.
Proof.
  induction a as [|[t p] a IH]; intros b; [reflexivity|].
  change (s_nboxes t + s_nboxes (TComp (a ++ b)) = s_nboxes t + s_nboxes (TComp a) + s_nboxes (TComp b))%nat. rewrite IH. lia.
Qed.

Lemma cinv_new : cinv [] comp_new.
Proof.
  constructor; cbn [comp_new c_shapes c_mesh].
  - constructor.
  - apply new_inv.
  - reflexivity.
  - exists []. split; [reflexivity|]. split; [|intros ? []]. intros p H. inversion H; subst. contradiction.
  - congruence.
Qed.

Lemma cinv_add : forall l c t ch pose, cinv l c -> built t ch -> rigid pose ->
  (N.of_nat (8 * s_nboxes (TComp (l ++ [(t, pose)]))) < 2^32)%N ->
  exists c', comp_add c ch pose = Ret c' /\ cinv (l ++ [(t, pose)]) c'.
Proof.
  intros l c t ch pose [I1 I2 I3 [s [S1 [S2 S3]]] I5] B RG SZ.
  destruct (b_soup _ _ B) as [lch [L1 L2]].
  assert (SZ' : (N.of_nat (length (m_points (c_mesh c)) + length (m_points (ch_mesh ch))) < 2^32)%N).
  { rewrite I3, (b_size _ _ B). rewrite nboxes_app in SZ. cbn [s_nboxes] in SZ. cbn [s_nboxes]. lia. }
  destruct (comp_add_spec c ch pose s lch S1 L1 (reads_inv _ _ (b_cache _ _ B) L1) SZ') as [c' [E [E1 [E2 [E3 [E4 [E5 E6]]]]]]].
  cbv zeta in E5. destruct E5 as [ER [EMN EMX]].
  exists c'. split; auto. constructor; auto.
  - rewrite E1. apply Forall2_app; auto.
  - rewrite E4, I3, (b_size _ _ B), nboxes_app. cbn [s_nboxes]. lia.
  - exists (s ++ map3 (tapply pose) lch). split; auto. rewrite corners_app, corners_map3. split.
    + intros p P. inversion P as [|? t' pose' q I Q]; subst. apply in_app_or in I. destruct I as [I|[I|[]]].
      * apply (hull_incl (s_corners s)); [apply incl_appl, incl_refl|]. apply S2. econstructor; eauto.
      * injection I as <- <-. eapply hull_incl; [apply incl_appr, incl_refl|]. apply hull_map. auto.
    + rewrite EMN, EMX. unfold s_in_box. cbn [vx vy vz].
      set (cs := map (tapply pose) (s_corners lch)).
      destruct (rminf_spec vx cs (vx (c_min c))) as [A1 [B1 _]]. destruct (rminf_spec vy cs (vy (c_min c))) as [A2 [B2 _]].
      destruct (rminf_spec vz cs (vz (c_min c))) as [A3 [B3 _]]. destruct (rmaxf_spec vx cs (vx (c_max c))) as [A4 [B4 _]].
      destruct (rmaxf_spec vy cs (vy (c_max c))) as [A5 [B5 _]]. destruct (rmaxf_spec vz cs (vz (c_max c))) as [A6 [B6 _]].
      intros q Q. apply in_app_or in Q. destruct Q as [Q|Q].
      * specialize (S3 q Q). unfold s_in_box in S3. lra.
      * repeat split; auto.
Qed.

Lemma cinv_bb : forall l c p, cinv l c -> s_in (TComp l) p -> s_in_box (b_min (c_bb c)) (b_max (c_bb c)) p.
Proof.
  intros l c p I P. destruct (i_soup _ _ I) as [s [S1 [S2 S3]]].
  rewrite (i_bb _ _ I). { cbn [box_make b_min b_max]. apply (hull_box (s_corners s)); auto. }
  inversion P; subst. destruct l; [contradiction|discriminate].
Qed.

Lemma in_comp_iff : forall l p, (forall t pose, In (t, pose) l -> rigid pose) ->
  (s_in (TComp l) p <-> exists t pose, In (t, pose) l /\ s_in t (tapply (tinverse pose) p)).
Proof.
  intros l p RG. split.
  - intros H. inversion H as [|? t pose q I Q]; subst. exists t, pose. split; auto. rewrite tinverse_apply; eauto.
  - intros [t [pose [I Q]]]. rewrite <- (tapply_inverse pose p) by eauto. econstructor; eauto.
Qed.

Lemma oany_spec : forall (f : child R * trans3 R -> outcome bool) (P : ctree R * trans3 R -> Prop) l cl,
  Forall2 (fun tp ci => exists b, f ci = Ret b /\ (b = true <-> P tp)) l cl ->
  exists b, oany f cl = Ret b /\ (b = true <-> exists tp, In tp l /\ P tp).
Proof.
  induction 1 as [|tp ci l cl [b [E B]] F IH]; cbn [oany].
  - exists false. split; auto. split; [discriminate|]. intros [? [[] _]].
  - rewrite E. cbn [obind]. destruct b.
    + exists true. split; auto. split; auto. intros _. exists tp. split; [left; auto|]. apply B. auto.
    + destruct IH as [b' [E' B']]. exists b'. split; auto. rewrite B'. split.
      * intros [x [X Y]]. exists x. split; [right; auto|auto].
      * intros [x [[<-|X] Y]]; [apply B in Y; discriminate|exists x; auto].
Qed.

Lemma Forall2_impl' : forall A B (P Q : A -> B -> Prop) l m, (forall a b, In a l -> P a b -> Q a b) -> Forall2 P l m -> Forall2 Q l m.
Proof.
  intros A B P Q l m H F. induction F; constructor.
  - apply H; [left|]; auto.
  - apply IHF. intros. apply H; [right|]; auto.
Qed.

Lemma cinv_rigid : forall l c, cinv l c -> forall t pose, In (t, pose) l -> rigid pose.
Proof.
  intros l c [F _ _ _ _]. induction F as [|[t' p'] ci l' cl [B [RG E]] F IH]; intros t pose H; [contradiction|].
  destruct H as [[= -> ->]|H]; eauto.
Qed.

Lemma comp_cspec : forall l c, cinv l c -> cspec (TComp l) (comp_child c).
Proof.
  intros l c I p. cbn [comp_child ch_contains]. unfold comp_contains.
  assert (BC : box_contains (c_bb c) p = true <-> s_in_box (b_min (c_bb c)) (b_max (c_bb c)) p).
  { unfold box_contains, s_in_box. rewrite !andb_true_iff. cbn [nleb NumR]. rewrite !Rleb_true. tauto. }
  destruct (box_contains (c_bb c) p) eqn:E; cbn [negb].
  - destruct (oany_spec (fun '(ch, inv) => ch_contains ch (tapply inv p)) (fun '(t, pose) => s_in t (tapply (tinverse pose) p)) l (c_shapes c)) as [b [E' B]].
    { eapply Forall2_impl'; [|apply (i_shapes _ _ I)]. intros [t pose] [ch inv] _ [B [RG EI]]. cbn [fst snd] in *. subst inv. apply (b_c _ _ B). }
    exists b. split; auto. rewrite B, (in_comp_iff l p (cinv_rigid _ _ I)). split.
    + intros [[t pose] [X Y]]. eauto.
    + intros [t [pose [X Y]]]. exists (t, pose). auto.
  - exists false. split; auto. split; [discriminate|]. intros H. apply (cinv_bb _ _ _ I) in H. apply BC in H. discriminate.
Qed.

Lemma comp_bspec : forall l c, cinv l c -> bspec (TComp l) (comp_child c).
Proof.
  intros l c I p r. cbn [comp_child ch_sphere]. unfold comp_sphere.
  set (Q := if Rle_dec r 0 then s_in (TComp l) p else exists q, s_in (TComp l) q /\ s_dist2 p q <= r * r).
  assert (QB : Q -> box_sphere (c_bb c) p r = true).
  { intros H. assert (OB : forall q, s_in (TComp l) q -> s_ordered (b_min (c_bb c)) (b_max (c_bb c))).
    { intros q K. apply (cinv_bb _ _ _ I) in K. unfold s_in_box in K. unfold s_ordered. lra. }
    unfold Q in H. destruct (Rle_dec r 0) eqn:D.
    - apply box_sphere_R; [eapply OB; eauto|]. rewrite D. eapply cinv_bb; eauto.
    - destruct H as [q [H1 H2]]. apply box_sphere_R; [eapply OB; eauto|]. rewrite D. exists q. split; auto. eapply cinv_bb; eauto. }
  destruct (box_sphere (c_bb c) p r) eqn:E; cbn [negb].
  - destruct (oany_spec (fun '(ch, inv) => ch_sphere ch (tapply inv p) r)
      (fun '(t, pose) => if Rle_dec r 0 then s_in t (tapply (tinverse pose) p) else exists q, s_in t q /\ s_dist2 (tapply (tinverse pose) p) q <= r * r) l (c_shapes c)) as [b [E' B]].
    { eapply Forall2_impl'; [|apply (i_shapes _ _ I)]. intros [t pose] [ch inv] _ [B [RG EI]]. cbn [fst snd] in *. subst inv. apply (b_b _ _ B). }
    exists b. split; auto. rewrite B. unfold Q. destruct Rle_dec.
    + rewrite (in_comp_iff l p (cinv_rigid _ _ I)). split.
      * intros [[t pose] [X Y]]. eauto.
      * intros [t [pose [X Y]]]. exists (t, pose). auto.
    + split.
      * intros [[t pose] [X [q [Y Z]]]]. exists (tapply pose q). split; [econstructor; eauto|].
        rewrite <- (rigid_dist2 (tinverse pose)) by (apply rigid_inverse, (cinv_rigid _ _ I _ _ X)).
        rewrite tinverse_apply by (apply (cinv_rigid _ _ I _ _ X)). auto.
      * intros [q [Y Z]]. inversion Y as [|? t pose y X Y']; subst. exists (t, pose). split; auto. exists y. split; auto.
        rewrite <- (rigid_dist2 (tinverse pose)) in Z by (apply rigid_inverse, (cinv_rigid _ _ I _ _ X)).
        rewrite tinverse_apply in Z by (apply (cinv_rigid _ _ I _ _ X)). auto.
  - exists false. split; auto. split; [discriminate|]. intros H. apply QB in H. discriminate.
Qed.

(** *** rays *)
Section RayLoop.
  Variables (o d : vec3 R) (t0 t1 : R).
  Hypothesis ND : s_norm d <> 0.
  Definition ins mn mx pose s := s_placed mn mx pose (s_ray_at o (s_unit d) s).
  Definition ahd mn mx pose := exists s, t0 < s /\ ins mn mx pose s.
  (** the loop state (hit, md) after the children in l *)
  Definition lst (l : list (ctree R * trans3 R)) (hit : bool) (md : R) : Prop :=
    (forall mn mx pose, s_leaf (TComp l) mn mx pose -> ahd mn mx pose -> forall s, ins mn mx pose s -> md <= s) /\
    (if hit then md < t1 /\ exists mn mx pose, s_leaf (TComp l) mn mx pose /\ ahd mn mx pose /\ ins mn mx pose md
     else md = t1).
  Lemma frame_dir : forall pose q, rigid pose -> rigid q -> s_general_dir (m3mulv (tR (tinverse (tmul pose q))) d) ->
    s_general_dir (m3mulv (tR (tinverse q)) (m3mulv (tR (tinverse pose)) (s_unit d))).
  Proof.
    intros pose q P Q H.
    assert (E : m3mulv (tR (tinverse q)) (m3mulv (tR (tinverse pose)) (s_unit d)) = s_unit (m3mulv (tR (tinverse (tmul pose q))) d)).
    { rewrite <- unit_rot2. 2: { apply rigid_inverse, rigid_mul; auto. }
      destruct pose as [[a b c d' e f g h i] [x y z]], q as [[a' b' c' d'' e' f' g' h' i'] [x' y' z']]. generalize (s_unit d). intros [u v w].
      clear. unmath. apply V3_eq; ring. }
    rewrite E. unfold s_general_dir in *.
    rewrite unit_unit; auto. apply norm_unit. rewrite norm_rot; auto. apply rigid_inverse, rigid_mul; auto.
  Qed.
  Lemma place_sub : forall mn mx pose q s, rigid pose ->
    (s_placed mn mx q (s_ray_at (tapply (tinverse pose) o) (m3mulv (tR (tinverse pose)) (s_unit d)) s) <-> ins mn mx (tmul pose q) s).
  Proof.
    intros mn mx pose q s P. unfold ins, s_placed. rewrite <- ray_rigid. split; intros [y [Y E]]; exists y; split; auto.
    - rewrite tapply_tmul, <- E, tapply_inverse; auto.
    - rewrite E, tapply_tmul, tinverse_apply; auto.
  Qed.
  Lemma leaf_app : forall a b mn mx pose, s_leaf (TComp (a ++ b)) mn mx pose <-> s_leaf (TComp a) mn mx pose \/ s_leaf (TComp b) mn mx pose.
  Proof.
    intros. split.
    - intros H. inversion H; subst. match goal with I : In _ (_ ++ _) |- _ => apply in_app_or in I; destruct I end; [left|right]; econstructor; eauto.
    - intros [H|H]; inversion H; subst; econstructor; eauto; apply in_or_app; auto.
  Qed.

  Lemma frame_rigid : forall t, s_wf t -> forall q, s_frame t q -> rigid q.
  Proof.
    intros t W q F. induction F as [t|l t pose q I F IH]; [apply rigid_identity|].
    inversion W as [|? H]; subst. destruct (H _ _ I) as [W' P]. apply rigid_mul; auto.
  Qed.

  Lemma loop_spec : forall cl l2 l1 hit md,
    Forall2 (fun tp ci => built (fst tp) (fst ci) /\ rigid (snd tp) /\ snd ci = tinverse (snd tp)) l2 cl ->
    s_wf (TComp (l1 ++ l2)) ->
    (forall q, s_frame (TComp (l1 ++ l2)) q -> s_general_dir (m3mulv (tR (tinverse q)) d)) ->
    lst l1 hit md ->
    exists hit' md', comp_ray_loop (ray_make o d) t0 cl hit md = Ret (hit', md') /\ lst (l1 ++ l2) hit' md'.
  Proof.
    intros cl l2 l1 hit md F. revert l1 hit md. induction F as [|[t pose] [ch inv] l2 cl [B [RG E]] F IH]; intros l1 hit md W G L.
    - exists hit, md. rewrite app_nil_r. auto.
    - cbn [fst snd] in *. subst inv. cbn [comp_ray_loop].
      assert (I : In (t, pose) (l1 ++ (t, pose) :: l2)) by (apply in_or_app; right; left; auto).
      assert (WT : s_wf t) by (inversion W as [|? H]; subst; apply (H _ _ I)).
      set (d' := m3mulv (tR (tinverse pose)) (s_unit d)).
      assert (U' : s_unit d' = d') by (apply unit_rot; auto; apply rigid_inverse; auto).
      destruct (b_r _ _ B (tapply (tinverse pose) o) d' t0 md (ndiv n0 n0)) as [h [x [E [H1 H2]]]].
      { intros q Q. unfold d'. apply frame_dir; auto; [eapply frame_rigid; eauto|]. apply G. econstructor; eauto. }
      cbv zeta in H1, H2. rewrite U' in H1, H2. unfold d' in H1, H2.
      cbn [nf32 NumR]. change (r_o (ray_make o d)) with o. change (r_d (ray_make o d)) with (s_unit d). fold d'. rewrite E. cbn [obind].
      assert (PS := fun mn mx q s => place_sub mn mx pose q s RG).
      assert (APP : l1 ++ (t, pose) :: l2 = (l1 ++ [(t, pose)]) ++ l2) by (rewrite <- app_assoc; reflexivity).
      assert (LF : forall mn mx f, s_leaf (TComp (l1 ++ [(t, pose)])) mn mx f ->
                 s_leaf (TComp l1) mn mx f \/ exists q, f = tmul pose q /\ s_leaf t mn mx q).
      { intros mn mx f H. apply leaf_app in H. destruct H as [H|H]; auto. right. inversion H as [|? ? ? ? ? q' IN LL]; subst.
        destruct IN as [[= <- <-]|[]]. eauto. }
      destruct L as [L1 L2]. rewrite APP in W, G |- *. destruct h.
      + destruct (H2 eq_refl) as [[mn [mx [q [X1 [[sa [X2 X2']] X3]]]]] X4].
        assert (XM : x < md).
        { destruct (proj1 H1 eq_refl) as [mn' [mx' [q' [Y1 [[sb [Y2 Y2']] [s [Y3 Y4]]]]]]].
          apply Rle_lt_trans with s; auto. apply (X4 mn' mx' q'); eauto. }
        apply IH; auto. split.
        * intros mn' mx' f LFf A s S. destruct (LF _ _ _ LFf) as [K|[q' [-> K]]].
          { apply Rlt_le. apply Rlt_le_trans with md; auto. eapply L1; eauto. }
          { destruct A as [sb [A1 A2]]. apply (X4 mn' mx' q'); auto; [exists sb; split; auto|]; apply PS; auto. }
        * split. { destruct hit; [lra|subst; auto]. }
          exists mn, mx, (tmul pose q). split; [apply leaf_app; right; econstructor; [left; reflexivity|auto]|].
          split; [exists sa; split; auto; apply PS; auto|apply PS; auto].
      + apply IH; auto. split.
        * intros mn' mx' f LFf A s S. destruct (LF _ _ _ LFf) as [K|[q' [-> K]]]; [eapply L1; eauto|].
          apply Rnot_lt_le. intros C. assert (false = true); [|discriminate]. apply H1.
          destruct A as [sb [A1 A2]]. exists mn', mx', q'. split; auto. split; [exists sb|exists s]; split; auto; apply PS; auto.
        * destruct hit; auto. destruct L2 as [M [mn [mx [f [K1 [K2 K3]]]]]]. split; auto. exists mn, mx, f.
          split; [apply leaf_app; auto|auto].
  Qed.
End RayLoop.

Lemma comp_rspec : forall l c, cinv l c -> s_wf (TComp l) -> rspec (TComp l) (comp_child c).
Proof.
  intros l c I W o d t0 t1 d0 G inside ahead.
  assert (D : s_general_dir d).
  { specialize (G tidentity (fr_here _)). replace (m3mulv (tR (tinverse tidentity)) d) with d in G; auto.
    destruct d as [x y z]. unmath. apply V3_eq; ring. }
  assert (ND := general_nonzero d D).
  assert (BB : (exists mn mx pose, s_leaf (TComp l) mn mx pose /\ ahead mn mx pose /\ exists s, s < t1 /\ inside mn mx pose s) ->
               fst (box_ray (c_bb c) (ray_make o d) t0 t1 d0) = true).
  { intros [mn [mx [pose [L [[s' [A A']] [s [B B']]]]]]].
    assert (P : forall s, inside mn mx pose s -> s_in_box (b_min (c_bb c)) (b_max (c_bb c)) (s_ray_at o (s_unit d) s)).
    { intros u U. apply (cinv_bb l); auto. apply s_in_leaf. exists mn, mx, pose. auto. }
    assert (O : s_ordered (b_min (c_bb c)) (b_max (c_bb c))).
    { apply P in A'. unfold s_in_box in A'. unfold s_ordered. lra. }
    destruct (box_entry (c_bb c) o d t0 t1 d0 O D) as [h [x [E [H1 _]]]]. rewrite E. cbn [fst]. apply H1.
    split; [exists s|exists s']; auto. }
  cbn [comp_child ch_ray]. unfold comp_ray.
  destruct (box_ray (c_bb c) (ray_make o d) t0 t1 d0) as [hb xb] eqn:E. cbn [fst] in BB.
  destruct hb; cbn [negb].
  - destruct (loop_spec o d t0 t1 ND (c_shapes c) l [] false t1 (i_shapes _ _ I) W G) as [hit [md [EL [L1 L2]]]].
    { split; auto. intros mn mx pose L. inversion L; subst. contradiction. }
    rewrite EL. cbn [obind]. cbn [app] in L1, L2. destruct hit.
    + exists true, md. split; auto. destruct L2 as [M [mn [mx [pose [K1 [K2 K3]]]]]]. split.
      * split; auto. intros _. exists mn, mx, pose. split; auto. split; auto. exists md. auto.
      * intros _. split; [exists mn, mx, pose; auto|]. exact L1.
    + exists false, xb. split; auto. split; [|discriminate]. split; [discriminate|].
      intros [mn [mx [pose [K1 [K2 [s [K3 K4]]]]]]]. specialize (L1 _ _ _ K1 K2 s K4). lra.
  - exists false, xb. split; auto. split; [|discriminate]. split; [discriminate|]. intros H. apply BB in H. discriminate.
Qed.

Lemma built_comp : forall l c, cinv l c -> s_wf (TComp l) -> built (TComp l) (comp_child c).
Proof.
  intros l c I W. constructor.
  - apply comp_cspec; auto.
  - apply comp_bspec; auto.
  - apply comp_rspec; auto.
  - apply (i_cache _ _ I).
  - apply (i_size _ _ I).
  - destruct (i_soup _ _ I) as [s [S1 [S2 _]]]. exists s. auto.
Qed.

Definition build_list {T} {NT : Num T} := fix go (l : list (ctree T * trans3 T)) (c : comp T) : outcome (comp T) :=
  match l with
  | [] => Ret c
  | (t', p) :: r => let* ch := build t' in let* c' := comp_add c ch p in go r c'
  end.

Theorem build_ok : forall t, s_wf t -> (N.of_nat (8 * s_nboxes t) < 2^32)%N -> exists ch, build t = Ret ch /\ built t ch.
Proof.
  induction t as [mn mx|l IH] using ctree_ind'; intros W S.
  - exists (box_child (box_make mn mx)). split; auto. inversion W; subst. apply built_box; auto.
  - assert (K : forall l2 l1 c, l = l1 ++ l2 -> cinv l1 c -> exists c', build_list l2 c = Ret c' /\ cinv l c').
    { induction l2 as [|[t pose] l2 IH2]; intros l1 c E I.
      - exists c. rewrite app_nil_r in E. subst. auto.
      - assert (IN : In (t, pose) l) by (rewrite E; apply in_or_app; right; left; auto).
        assert (WT : s_wf t /\ rigid pose) by (inversion W as [|? H]; subst; eauto).
        assert (NB : (s_nboxes (TComp (l1 ++ [(t, pose)])) <= s_nboxes (TComp l))%nat).
        { rewrite E. replace (l1 ++ (t, pose) :: l2) with ((l1 ++ [(t, pose)]) ++ l2) by (rewrite <- app_assoc; auto).
          rewrite (nboxes_app (l1 ++ [(t, pose)])). lia. }
        assert (NT : (s_nboxes t <= s_nboxes (TComp (l1 ++ [(t, pose)])))%nat).
        { rewrite nboxes_app. cbn [s_nboxes]. lia. }
        destruct (IH t pose IN) as [ch [EB B]]; [tauto|lia|].
        destruct (cinv_add l1 c t ch pose I B) as [c' [EC I']]; [tauto|lia|].
        destruct (IH2 (l1 ++ [(t, pose)]) c') as [c'' [E'' I'']]; auto.
        { rewrite <- app_assoc. auto. }
        exists c''. split; auto. cbn [build_list]. rewrite EB. cbn [obind]. rewrite EC. cbn [obind]. exact E''. }
    destruct (K l [] comp_new eq_refl cinv_new) as [c [E I]].
    exists (comp_child c). split; [|apply built_comp; auto].
    change (build (TComp l)) with (let* c := build_list l comp_new in Ret (comp_child c)). rewrite E. reflexivity.
Qed.
