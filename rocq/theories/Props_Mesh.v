(** * Properties C11-C17: meshes and triangles *)
From Coq Require Import ZArith NArith List Bool Lia Reals Lra Psatz.
From Verif Require Import Num MathTypes Outcome Mesh Spec NumOrd P_Tac P_Math P_Rot P_Mesh P_MeshFilter P_MeshGeo.
Import ListNotations.

(** the triangle list of a mesh in the vocabulary of Spec.v *)
Definition soup_of {T} (m : mesh T) := s_soup (m_points m) (map idx (m_tris m)).
Definition valid_mesh {T} (m : mesh T) := s_valid (length (m_points m)) (map idx (m_tris m)).

(** example mesh over doubles: two triangles sharing two (nearly) coincident corners, all queries in between *)
Definition f (z : Z) : F64 := nofZ z.
Definition ex_ops : list (mesh_op F64) :=
  [OAddPoint (V3 (f 0) (f 0) (f 0)); OAddPoint (V3 (f 3) (f 4) (f 0)); OGetMaxRadius; OAddPoint (V3 (f 0) (f 1) (f 0));
   OAddTriangle 0 1 2; OGetTriangles; OAddPoint (V3 (f 3) (f 4) (f 0)); OAddTriangle 3 1 0; OGetMaxRadius; OFilter].

(** ** C11 *)
Theorem C11_index_stability : forall (T : Type) (NT : Num T) (m1 m3 : mesh T) (p : vec3 T) before after,
  mesh_run mesh_new before = Ret m1 ->
  (N.of_nat (length (m_points m1)) < 2 ^ 32)%N ->
  Forall building after ->
  mesh_run (snd (addPoint m1 p)) after = Ret m3 ->
  s_nth (m_points m3) (N.to_nat (fst (addPoint m1 p))) = Some p.
Proof.
  intros T NT m1 m3 p before after _ S B R. destruct (run_points _ _ _ B R) as [l L].
  pose proof (addPoint_at m1 p S) as A. rewrite L. rewrite s_nth_nth_error in *.
  rewrite nth_error_app1; auto. apply nth_error_Some. congruence.
Qed.
(** no index handed out earlier is disturbed, whatever it points to *)
Theorem C11_points_only_grow : forall (T : Type) (NT : Num T) (m m' : mesh T) ops,
  Forall building ops -> mesh_run m ops = Ret m' ->
  exists l, m_points m' = m_points m ++ l.
Proof. intros. eapply run_points; eauto. Qed.
(** what a mesh holds: its points and the corner numbers of its triangles, in the order they were added *)
Fixpoint s_built {T} (ops : list (mesh_op T)) (ps : list (vec3 T)) (ts : list (N * N * N)) : list (vec3 T) * list (N * N * N) :=
  match ops with
  | [] => (ps, ts)
  | OAddPoint p :: r => s_built r (ps ++ [p]) ts
  | OAddTriangle a b c :: r => s_built r ps (ts ++ [(a, b, c)])
  | OAdd o :: r => let n := N.of_nat (length ps) in
      s_built r (ps ++ m_points o) (ts ++ map (fun '(a, b, c) => (n + a, n + b, n + c)%N) (map idx (m_tris o)))
  | OClear :: r => s_built r [] []
  | _ :: r => s_built r ps ts
  end.
Lemma built_grow : forall T (ops : list (mesh_op T)) ps ts, Forall building ops ->
  (exists l, fst (s_built ops ps ts) = ps ++ l) /\ (exists l, snd (s_built ops ps ts) = ts ++ l).
Proof.
  intros T ops. induction ops as [|o ops IH]; intros ps ts B; [split; exists []; cbn; now rewrite app_nil_r|].
  inversion B as [|? ? B1 B2]; subst.
  assert (G : forall ps1 ts1 e1 e2, ps1 = ps ++ e1 -> ts1 = ts ++ e2 -> 
    (exists l, fst (s_built ops ps1 ts1) = ps ++ l) /\ (exists l, snd (s_built ops ps1 ts1) = ts ++ l)).
  { intros ps1 ts1 e1 e2 E1 E2. destruct (IH ps1 ts1 B2) as [[l1 L1] [l2 L2]]. subst. split; [exists (e1 ++ l1)|exists (e2 ++ l2)]; rewrite app_assoc; auto. }
  destruct o; cbn [s_built]; cbn in B1; try contradiction; try (eapply G; [reflexivity || (symmetry; apply app_nil_r)|reflexivity || (symmetry; apply app_nil_r)]).
Qed.
Theorem C11_contents : forall (T : Type) (NT : Num T) ops (m m' : mesh T), Forall building ops -> mesh_run m ops = Ret m' ->
  let b := s_built ops (m_points m) (map idx (m_tris m)) in
  (N.of_nat (length (fst b)) < 2 ^ 32)%N -> Forall (fun '(i, j, k) => (i < 2 ^ 32)%N /\ (j < 2 ^ 32)%N /\ (k < 2 ^ 32)%N) (snd b) ->
  m_points m' = fst b /\ map idx (m_tris m') = snd b.
Proof.
  intros T NT ops. induction ops as [|o ops IH]; intros m m' B R b S F; [cbn in R; injection R as <-; auto|].
  inversion B as [|? ? B1 B2]; subst. cbn [mesh_run] in R. destruct (mesh_step m o) as [m1| | |] eqn:E; cbn [obind] in R; try discriminate R.
  specialize (IH m1 m' B2 R). cbv zeta in IH.
  assert (EB : s_built ops (m_points m1) (map idx (m_tris m1)) = b).
  { unfold b in *. clear b. destruct o; cbn [mesh_step] in E; cbn in B1; try contradiction.
    - injection E as <-. reflexivity.
    - injection E as <-. cbn [addTriangle invalidate m_points m_tris s_built]. rewrite map_app. reflexivity.
    - injection E as <-. unfold mesh_add. cbn [invalidate m_points m_tris s_built] in *.
      destruct (built_grow T ops (m_points m ++ m_points o) (map idx (m_tris m) ++ map (fun '(a, b, c) => (N.of_nat (length (m_points m)) + a, N.of_nat (length (m_points m)) + b, N.of_nat (length (m_points m)) + c)%N) (map idx (m_tris o))) B2) as [[l1 L1] [l2 L2]].
      rewrite L1 in S. rewrite L2 in F. f_equal. rewrite map_app. f_equal. apply Forall_app in F. destruct F as [F _]. apply Forall_app in F. destruct F as [_ F].
      rewrite !app_length, !Nat2N.inj_add in S. 
      assert (U : u32 (N.of_nat (length (m_points m))) = N.of_nat (length (m_points m))) by (apply N.mod_small; lia). rewrite U.
      clear - F. rewrite !map_map in *. apply map_ext_in. intros t I. rewrite Forall_map, Forall_forall in F. specialize (F t I). destruct t as [i j k]. unfold idx in *. cbn [ti1 ti2 ti3] in *. destruct F as [F1 [F2 F3]]. unfold u32. rewrite !N.mod_small by lia. rewrite !(N.add_comm (N.of_nat _)). reflexivity.
    - destruct (getTriangles m) as [[l m2]| | |] eqn:G; cbn [obind] in E; try discriminate E. injection E as <-. unfold getTriangles in G.
      destruct (m_tc m) in G; [destruct (build_tris _ _ _) in G; cbn [obind] in G; try discriminate G|]; injection G as _ <-; reflexivity.
    - injection E as <-. reflexivity.
    - injection E as <-. unfold getMaxRadius. destruct (neqb (m_r m) n0); reflexivity. }
  rewrite EB in IH. apply IH; auto.
Qed.
(** size and empty tell the number of triangles, clear leaves neither points nor triangles *)
Theorem C11_size : forall (T : Type) (NT : Num T) (m : mesh T), valid_mesh m ->
  exists l, soup_of m = Some l /\ mesh_size m = length l /\ (mesh_empty m = true <-> l = []) /\ m_points (mesh_clear m) = [] /\ soup_of (mesh_clear m) = Some [].
Proof.
  intros T NT m V. unfold valid_mesh in V. apply soup_valid in V. destruct V as [l L]. exists l. split; [exact L|].
  assert (E : length l = length (m_tris m)).
  { rewrite <- (map_length idx (m_tris m)). clear -L. revert l L. generalize (map idx (m_tris m)). induction l as [|[[i j] k] r IH]; cbn [s_soup]; intros l L; [injection L as <-; reflexivity|].
    destruct (s_nth _ _); [|discriminate]. destruct (s_nth _ _); [|discriminate]. destruct (s_nth _ _); [|discriminate]. destruct (s_soup _ r) as [x|]; [|discriminate]. injection L as <-. cbn [length]. rewrite (IH x eq_refl). reflexivity. }
  split; [unfold mesh_size; auto|]. split; [|split; reflexivity]. unfold mesh_empty. destruct (m_tris m), l; cbn in E; try discriminate; split; auto; discriminate.
Qed.
Example C11_nonvacuous : exists m3,
  mesh_run (snd (addPoint (mesh_new : mesh F64) (V3 (f 7) (f 0) (f 0))))
    [OAddPoint (V3 (f 3) (f 4) (f 0)); OGetMaxRadius; OAddTriangle 0 1 1; OGetTriangles] = Ret m3 /\
  Nat.eqb (length (m_points m3)) 2 = true.
Proof. apply oret_ex with (chk := fun m => Nat.eqb (length (m_points m)) 2). vm_compute. reflexivity. Qed.
Example C11_contents_nonvacuous : forall p q : vec3 F64,
  let o := MkMesh [p; q] [TI 0 1 1] n0 n0 [] in let ops := [OAddPoint p; OAdd o; OGetMaxRadius; OAddTriangle 2 1 0] in
  Forall building ops /\ s_built ops [] [] = ([p; p; q], [(1, 2, 2); (2, 1, 0)]%N).
Proof. intros. split; [repeat constructor|reflexivity]. Qed.
Print Assumptions C11_index_stability.
Print Assumptions C11_points_only_grow.
Print Assumptions C11_contents.
Print Assumptions C11_size.

(** ** C12: generic in the scalar type; NumOrd holds for the reals and for IEEE doubles *)
Definition uncached {T} {NT : Num T} (m : mesh T) : mesh T := MkMesh (m_points m) (m_tris m) n0 n0 [].
Theorem C12_radius_fresh : forall (T : Type) (NT : Num T) (O : NumOrd T) (m : mesh T) ops,
  mesh_run mesh_new ops = Ret m ->
  fst (getSquaredMaxRadius m) = fst (getSquaredMaxRadius (uncached m)) /\
  fst (getMaxRadius m) = fst (getMaxRadius (uncached m)) /\
  fst (getSquaredMaxRadius m) = s_fresh (m_points m) /\
  fst (getMaxRadius m) = nsqrt (s_fresh (m_points m)).
Proof.
  intros T NT O m ops R. pose proof (run_inv _ _ _ new_inv R) as I.
  assert (U : cache_inv (uncached m)) by (apply (inv_invalidate m)).
  rewrite !getSq_spec, !getR_spec by auto. auto.
Qed.
Theorem C12_triangles_fresh : forall (T : Type) (NT : Num T) (O : NumOrd T) (m : mesh T) ops,
  mesh_run mesh_new ops = Ret m ->
  match getTriangles m with
  | Ret (l, m') => soup_of m = Some (map tup l) /\ m_points m' = m_points m /\ m_tris m' = m_tris m
  | UB => ~ valid_mesh m
  | _ => False
  end.
Proof.
  intros T NT O m ops R. pose proof (getTriangles_spec m (run_inv _ _ _ new_inv R)) as G. unfold soup_of, valid_mesh.
  destruct (getTriangles m) as [[l m']| | |]; auto. tauto.
  rewrite soup_valid, G. intros [l L]. discriminate.
Qed.
Theorem C12_doubles : forall (m : mesh F64) ops, mesh_run mesh_new ops = Ret m ->
  fst (getSquaredMaxRadius m) = fst (getSquaredMaxRadius (uncached m)) /\
  fst (getMaxRadius m) = fst (getMaxRadius (uncached m)).
Proof. intros m ops R. destruct (C12_radius_fresh _ _ _ m ops R) as [A [B _]]. auto. Qed.
Example C12_nonvacuous : exists m, mesh_run mesh_new ex_ops = Ret m /\
  (Nat.eqb (length (m_points m)) 3 && Nat.eqb (length (m_tris m)) 2 && neqb (fst (getMaxRadius m)) (f 5))%bool = true.
Proof.
  apply oret_ex with (chk := fun m => (Nat.eqb (length (m_points m)) 3 && Nat.eqb (length (m_tris m)) 2 && neqb (fst (getMaxRadius m)) (f 5))%bool).
  vm_compute. reflexivity.
Qed.
Print Assumptions C12_radius_fresh.
Print Assumptions C12_triangles_fresh.
Print Assumptions C12_doubles.

(** ** C13 *)
Theorem C13_add : forall (T : Type) (NT : Num T) (m o : mesh T) l1 l2,
  (N.of_nat (length (m_points m) + length (m_points o)) < 2 ^ 32)%N ->
  soup_of m = Some l1 -> soup_of o = Some l2 ->
  soup_of (mesh_add m o) = Some (l1 ++ l2) /\ m_points (mesh_add m o) = m_points m ++ m_points o.
Proof. intros. split; [apply mesh_add_soup; auto|reflexivity]. Qed.
Theorem C13_valid : forall (T : Type) (NT : Num T) (m o : mesh T),
  (N.of_nat (length (m_points m) + length (m_points o)) < 2 ^ 32)%N ->
  valid_mesh m -> valid_mesh o -> valid_mesh (mesh_add m o).
Proof.
  intros T NT m o S V1 V2. unfold valid_mesh in *. rewrite soup_valid in *. destruct V1 as [l1 L1], V2 as [l2 L2].
  exists (l1 ++ l2). apply mesh_add_soup; auto.
Qed.
(** the bound is needed: index arithmetic is modulo 2^32 *)
Theorem C13_wraps : forall (T : Type) (NT : Num T) (m o : mesh T) t,
  (N.of_nat (length (m_points m)) = 2 ^ 32)%N -> m_tris o = [t] ->
  exists ts, m_tris (mesh_add m o) = ts ++ [TI (u32 (ti1 t)) (u32 (ti2 t)) (u32 (ti3 t))].
Proof.
  intros T NT m o t S E. exists (m_tris m). unfold mesh_add. cbn [invalidate m_tris]. rewrite E, S.
  change (u32 (2^32)) with 0%N. cbn [map]. rewrite !N.add_0_r. reflexivity.
Qed.
Example C13_nonvacuous : exists m, mesh_run (mesh_new : mesh F64) (firstn 9 ex_ops) = Ret m /\
  valid_mesh m.
Proof.
  destruct (oret_ex _ (mesh_run (mesh_new : mesh F64) (firstn 9 ex_ops))
    (fun m => match soup_of m with Some l => Nat.eqb (length l) 2 | None => false end)) as [m [M C]]; [vm_compute; reflexivity|].
  exists m. split; auto. unfold valid_mesh. apply soup_valid. unfold soup_of in C.
  destruct (s_soup _ _); eauto. discriminate.
Qed.
Print Assumptions C13_add.
Print Assumptions C13_valid.
Print Assumptions C13_wraps.

(** ** C14 *)
Theorem C14_transformed : forall (T : Type) (NT : Num T) (m : mesh T) (t : trans3 T),
  m_points (getTransformed m t) = map (tapply t) (m_points m) /\
  map idx (m_tris (getTransformed m t)) = map idx (m_tris m) /\
  soup_of (getTransformed m t) =
    option_map (map (fun '(a, b, c) => (tapply t a, tapply t b, tapply t c))) (soup_of m).
Proof. intros. repeat split. unfold soup_of. cbn [getTransformed m_points m_tris]. apply soup_map. Qed.
(** the radii of the transformed mesh are its own: computed from the transformed points, whatever was cached before *)
Theorem C14_radius : forall (T : Type) (NT : Num T) (O : NumOrd T) (m : mesh T) (t : trans3 T),
  fst (getSquaredMaxRadius (getTransformed m t)) = s_fresh (map (tapply t) (m_points m)) /\ fst (getMaxRadius (getTransformed m t)) = nsqrt (s_fresh (map (tapply t) (m_points m))) /\
  match getTriangles (getTransformed m t) with Ret (l, _) => soup_of (getTransformed m t) = Some (map tup l) | UB => ~ valid_mesh (getTransformed m t) | _ => False end.
Proof.
  intros T NT O m t. assert (U : cache_inv (getTransformed m t)) by (apply (inv_invalidate (getTransformed m t))).
  split; [rewrite getSq_spec by auto; reflexivity|]. split; [rewrite getR_spec by auto; reflexivity|].
  pose proof (getTriangles_spec _ U) as G. unfold soup_of, valid_mesh. destruct (getTriangles _) as [[l m']| | |]; auto; [tauto|]. rewrite soup_valid, G. intros [l L]. discriminate.
Qed.
Theorem C14_compose : forall (m : mesh R) (a b : trans3 R),
  getTransformed (getTransformed m b) a = getTransformed m (tmul a b).
Proof.
  intros. unfold getTransformed. cbn. rewrite map_map. f_equal. apply map_ext. intros. symmetry. apply tapply_tmul.
Qed.
Theorem C14_rigid_keeps_shape : forall (m : mesh R) (t : trans3 R) l l', rigid t ->
  soup_of m = Some l -> soup_of (getTransformed m t) = Some l' ->
  Forall2 (fun '(a, b, c) '(a', b', c') =>
    s_dist2 a' b' = s_dist2 a b /\ s_dist2 b' c' = s_dist2 b c /\ s_dist2 a' c' = s_dist2 a c) l l'.
Proof.
  intros m t l l' H A B. destruct (C14_transformed _ _ m t) as [_ [_ E]]. rewrite B, A in E. cbn in E. injection E as ->.
  clear -H. induction l as [|[[a b] c] r IH]; constructor; auto. rewrite !rigid_dist2 by auto. auto.
Qed.
Theorem C14_inverse : forall (m : mesh R) (t : trans3 R), rigid t ->
  m_points (getTransformed (getTransformed m t) (tinverse t)) = m_points m.
Proof.
  intros m t H. rewrite C14_compose, tinverse_l by auto. cbn. rewrite <- (map_id (m_points m)) at 2.
  apply map_ext. apply tapply_id.
Qed.
Example C14_nonvacuous : exists (m : mesh R) l, soup_of m = Some l /\ length l = 1 /\ rigid (tidentity : trans3 R).
Proof.
  exists (MkMesh [V3 0 0 0; V3 1 0 0; V3 0 1 0]%R [TI 0 1 2] 0%R 0%R []). eexists. split; [reflexivity|]. split; auto.
  apply rigid_identity.
Qed.
Print Assumptions C14_transformed.
Print Assumptions C14_radius.
Print Assumptions C14_compose.
Print Assumptions C14_rigid_keeps_shape.
Print Assumptions C14_inverse.

(** ** C15 *)
(** exact behaviour for every scalar type: the surviving points are the first points of each
    key class in order, each triangle corner is redirected to the survivor of its class, and the
    only failure is undefined behaviour, exactly for an unrepresentable key or a dangling index *)
Theorem C15_filter : forall (T : Type) (NT : Num T) (m : mesh T),
  (N.of_nat (length (m_points m)) < 2 ^ 32)%N ->
  match filterOverlapping m with
  | Ret m' =>
      (forall p, In p (m_points m) -> vert_key p <> None) /\
      m_points m' = s_firsts keyb vert_key [] (m_points m) /\
      length (m_tris m') = length (m_tris m) /\
      exists l, soup_of m = Some l /\ soup_of m' = Some (map (rep3 (m_points m)) l)
  | UB => (exists p, In p (m_points m) /\ vert_key p = None) \/ ~ valid_mesh m
  | _ => False
  end.
Proof.
  intros T NT m S. pose proof (filter_spec m S) as F. unfold soup_of, valid_mesh.
  destruct (filterOverlapping m); auto. destruct F as [F|F]; auto. right. rewrite soup_valid, F. intros [l L]. discriminate.
Qed.
Theorem C15_distinct_keys : forall (T : Type) (NT : Num T) (m m' : mesh T),
  (N.of_nat (length (m_points m)) < 2 ^ 32)%N ->
  filterOverlapping m = Ret m' -> NoDup (map vert_key (m_points m')).
Proof.
  intros T NT m m' S H. pose proof (filter_spec m S) as F. rewrite H in F. destruct F as [_ [-> _]]. apply firsts_nodup.
Qed.
Theorem C15_idempotent : forall (T : Type) (NT : Num T) (m m' : mesh T),
  (N.of_nat (length (m_points m)) < 2 ^ 32)%N ->
  filterOverlapping m = Ret m' ->
  exists m'', filterOverlapping m' = Ret m'' /\ m_points m'' = m_points m' /\ m_tris m'' = m_tris m'.
Proof.
  intros T NT m m' S H. pose proof (filter_spec m S) as F. rewrite H in F. destruct F as [F1 [F2 [_ [l [L L']]]]].
  assert (S' : (N.of_nat (length (m_points m')) < 2 ^ 32)%N).
  { rewrite F2. pose proof (firsts_le (m_points m)). lia. }
  pose proof (filter_spec m' S') as F'. pose proof (filter_nodup_id m') as G.
  destruct (filterOverlapping m') as [m''| | |]; try contradiction.
  - exists m''. split; auto. apply G; auto. rewrite F2. apply firsts_nodup.
  - exfalso. destruct F' as [[p [P1 P2]]|F']; [|congruence].
    apply (F1 p); auto. rewrite F2 in P1. clear -P1. revert P1. generalize (@nil (option (Z*Z*Z))).
    induction (m_points m) as [|v r IH]; cbn; intros s P; auto. destruct (existsb _ s).
    + right. eapply IH; eauto.
    + destruct P as [P|P]; [left; auto|right; eapply IH; eauto].
Qed.
(** over the reals: what the key is, and how far a corner can move *)
Theorem C15_key_meaning : forall (v : vec3 R) a b c, vert_key v = Some (a, b, c) <->
  (mm_cell (vx v) a /\ int_range a) /\ (mm_cell (vy v) b /\ int_range b) /\ (mm_cell (vz v) c /\ int_range c).
Proof. exact vert_key_R. Qed.
Theorem C15_displacement : forall (m m' : mesh R) l l',
  (N.of_nat (length (m_points m)) < 2 ^ 32)%N ->
  filterOverlapping m = Ret m' -> soup_of m = Some l -> soup_of m' = Some l' ->
  let near (p q : vec3 R) := forall g, (g = vx \/ g = vy \/ g = vz) ->
    (Rabs (g p - g q) < 2 / 1000 /\ (1 <= Rabs (1000 * g p) -> Rabs (g p - g q) < 1 / 1000))%R in
  Forall2 (fun '(a, b, c) '(a', b', c') => near a a' /\ near b b' /\ near c c') l l'.
Proof.
  intros m m' l l' S H A B near. pose proof (C15_filter _ _ m S) as F. rewrite H in F.
  destruct F as [F1 [F2 [F3 [l0 [L L']]]]]. rewrite A in L. injection L as <-. rewrite B in L'. injection L' as ->.
  assert (NR : forall p, In p (m_points m) -> near p (match rep (m_points m) p with Some q => q | None => p end)).
  { intros p P. specialize (F1 p P).
    assert (exists q, rep (m_points m) p = Some q) as [q Q].
    { unfold rep. destruct (find _ (m_points m)) as [q|] eqn:E; eauto.
      apply find_none with (x := p) in E; auto. rewrite keyb_refl in E. discriminate. }
    rewrite Q. unfold rep in Q. apply find_some in Q. destruct Q as [_ K]. apply keyb_eq in K.
    destruct (vert_key p) as [[[a b] c]|] eqn:KP; [|congruence]. symmetry in K.
    apply vert_key_R in KP, K. destruct KP as [[X1 _] [[Y1 _] [Z1 _]]], K as [[X2 _] [[Y2 _] [Z2 _]]].
    assert (G : forall x y z, mm_cell x z -> mm_cell y z ->
      (Rabs (x - y) < 2/1000 /\ (1 <= Rabs (1000 * x) -> Rabs (x - y) < 1/1000))%R).
    { intros x y z U V. destruct (cell_close _ _ _ U V) as [C1 C2]. split; auto.
      intros W. apply C2. intros ->. destruct U as [[U1 U2] _]. rewrite Rabs_R0 in U2. lra. }
    intros g [-> | [-> | ->]]; eauto. }
  pose proof (fun a b c => soup_in _ _ _ a b c A) as IN. clear -NR IN.
  induction l as [|[[a b] c] r IH]; constructor.
  - destruct (IN a b c (or_introl eq_refl)) as [I1 [I2 I3]]. cbn. auto.
  - apply IH. intros a' b' c' I. apply IN. right; auto.
Qed.
(** the 1 mm bound really fails in the zero cell *)
Theorem C15_zero_cell_tight : exists p q : vec3 R,
  vert_key p = vert_key q /\ vert_key p <> None /\ (19/10000 < Rabs (vx p - vx q))%R.
Proof.
  exists (V3 (-95/100000) 0 0)%R, (V3 (96/100000) 0 0)%R.
  assert (A : vert_key (V3 (-95/100000) 0 0)%R = Some (0, 0, 0)%Z).
  { apply vert_key_R. unfold mm_cell, int_range. cbn. rewrite Rabs_R0. unfold Rabs. repeat split; try lia; repeat destruct Rcase_abs; lra. }
  assert (B : vert_key (V3 (96/100000) 0 0)%R = Some (0, 0, 0)%Z).
  { apply vert_key_R. unfold mm_cell, int_range. cbn. rewrite Rabs_R0. unfold Rabs. repeat split; try lia; repeat destruct Rcase_abs; lra. }
  rewrite A, B. repeat split; try congruence. cbn. unfold Rabs. destruct Rcase_abs; lra.
Qed.
Example C15_nonvacuous : exists m m', mesh_run (mesh_new : mesh F64) (firstn 9 ex_ops) = Ret m /\
  filterOverlapping m = Ret m' /\ length (m_points m) = 4 /\ length (m_points m') = 3.
Proof.
  destruct (oret_ex _ (mesh_run (mesh_new : mesh F64) (firstn 9 ex_ops))
    (fun m => (Nat.eqb (length (m_points m)) 4 && oret_chk (filterOverlapping m) (fun m' => Nat.eqb (length (m_points m')) 3))%bool))
    as [m [M C]]; [vm_compute; reflexivity|].
  apply andb_prop in C. destruct C as [C1 C2]. apply oret_ex in C2. destruct C2 as [m' [M' C2]].
  exists m, m'. apply Nat.eqb_eq in C1, C2. auto.
Qed.
Example C15_ub : filterOverlapping (MkMesh [V3 (f 3000000) (f 0) (f 0)] [] (f 0) (f 0) []) = UB.
Proof. vm_compute. reflexivity. Qed.
Print Assumptions C15_filter.
Print Assumptions C15_distinct_keys.
Print Assumptions C15_idempotent.
Print Assumptions C15_key_meaning.
Print Assumptions C15_displacement.
Print Assumptions C15_zero_cell_tight.

(** ** C16 *)
Local Open Scope R_scope.
Theorem C16_radius : forall (m : mesh R) ops, mesh_run mesh_new ops = Ret m ->
  let r := fst (getMaxRadius m) in
  (forall p, In p (m_points m) -> s_norm p <= r) /\
  (forall l a b c p, soup_of m = Some l -> In (a, b, c) l -> in_triangle a b c p -> s_norm p <= r) /\
  (m_points m = [] -> r = 0) /\
  (m_points m <> [] -> exists p, In p (m_points m) /\ s_norm p = r) /\
  fst (getSquaredMaxRadius m) = r * r.
Proof.
  intros m ops R r. destruct (C12_radius_fresh _ _ _ m ops R) as [_ [_ [SQ RD]]].
  destruct (radius_sq (m_points m)) as [A [B C]]. unfold r. rewrite SQ, RD. unR. repeat split.
  - intros p P. apply sqrt_le_1_alt. apply A; auto.
  - intros l a b c p L I TR. destruct (soup_in _ _ _ _ _ _ L I) as [I1 [I2 I3]].
    apply sqrt_le_1_alt. apply (convex_norm a b c p); auto.
  - intros E. rewrite E. unfold s_fresh. cbn [map s_runmax]. unR. apply sqrt_0.
  - intros NE. destruct B as [[B _]|[p [P1 P2]]]; [contradiction|]. exists p. split; auto. unfold s_norm, s_norm2 in *. congruence.
  - symmetry. apply sqrt_sq. auto.
Qed.
Example C16_nonvacuous : exists m : mesh R, mesh_run mesh_new [OAddPoint (V3 3 4 0); OAddPoint (V3 1 0 0); OAddTriangle 0 1 1] = Ret m /\
  soup_of m = Some [(V3 3 4 0, V3 1 0 0, V3 1 0 0)].
Proof. eexists. split; reflexivity. Qed.
Print Assumptions C16_radius.

(** ** C17 *)
Theorem C17_normal : forall (m : mesh R) i a b c,
  (exists l, soup_of m = Some l /\ s_nth l (N.to_nat i) = Some (a, b, c)) -> ~ collinear a b c ->
  exists n, getTriangleNormal m i = Ret n /\
    s_norm2 n = 1 /\ s_dot n (vsub b a) = 0 /\ s_dot n (vsub c a) = 0 /\
    (* a, b, c run clockwise seen from the tip of n *)
    s_det (vsub b a) (vsub c a) n < 0.
Proof.
  intros m i a b c [l [L E]] NC. unfold getTriangleNormal, soup_of in *.
  assert (G : exists t, nth_error (m_tris m) (N.to_nat i) = Some t /\
     point_at (m_points m) (ti1 t) = Some a /\ point_at (m_points m) (ti2 t) = Some b /\ point_at (m_points m) (ti3 t) = Some c).
  { revert l L E. generalize (N.to_nat i). generalize (m_tris m). unfold point_at.
    induction l as [|[x y z] r IH]; cbn; intros k l0 L E.
    - injection L as <-. cbn in E. destruct k; discriminate.
    - rewrite !s_nth_nth_error in L.
      destruct (nth_error (m_points m) (N.to_nat x)) eqn:E1; [|discriminate].
      destruct (nth_error (m_points m) (N.to_nat y)) eqn:E2; [|discriminate].
      destruct (nth_error (m_points m) (N.to_nat z)) eqn:E3; [|discriminate].
      destruct (s_soup (m_points m) (map idx r)) eqn:E4; [|discriminate]. injection L as <-.
      destruct k; cbn in E.
      + injection E as <- <- <-. exists (TI x y z). auto.
      + destruct (IH k _ eq_refl E) as [t [T1 T2]]. exists t. auto. }
  destruct G as [t [G1 [G2 [G3 G4]]]]. rewrite G1. cbn [or_ub obind]. rewrite G2. cbn [or_ub obind]. rewrite G3. cbn [or_ub obind].
  rewrite G4. cbn [or_ub obind]. eexists. split; [reflexivity|]. apply normal_R.
  intros Z. apply NC. apply cross_zero_collinear. rewrite <- Z. clear. dvec; unmath; unspec; ring.
Qed.
Theorem C17_area : forall a b c : vec3 R,
  0 <= triangleArea a b c /\ (2 * triangleArea a b c) ^ 2 = gram (vsub b a) (vsub c a) /\
  (triangleArea a b c = 0 <-> collinear a b c).
Proof. intros. destruct (area_R a b c). split; auto. split; auto. apply area_zero. Qed.
Theorem C17_area_method : forall t : tri R, tri_area t = triangleArea (tp1 t) (tp2 t) (tp3 t).
Proof. reflexivity. Qed.
Example C17_nonvacuous : ~ collinear (V3 0 0 0) (V3 1 0 0) (V3 0 1 0) /\ 2 * triangleArea (V3 0 0 0) (V3 3 0 0) (V3 0 4 0) = 12.
Proof.
  split.
  - rewrite <- cross_zero_collinear. unmath; unspec. lra.
  - destruct (area_R (V3 0 0 0) (V3 3 0 0) (V3 0 4 0)) as [A B]. unfold gram in B. unmath; unspec. nra.
Qed.
Print Assumptions C17_normal.
Print Assumptions C17_area.
Print Assumptions C17_area_method.
