(** * C65, C70, C78, C79: reading and writing mesh files *)
From Coq Require Import ZArith NArith List Bool Reals Lra Lia String Ascii.
From Verif Require Import Num MathTypes Outcome Mesh Import Spec SpecLaser SpecImport NumOrd P_Tac P_Math P_Mesh P_MeshGeo P_Firsts P_Import P_Laser4 Props_Mesh Props_Math.
Import ListNotations.

(** ** C65 *)
(** For every scalar type and every scene tree: import either returns a mesh holding exactly, in order, the
    contribution of every mesh instance (distinct vertices by key, triangular faces by key triple), or the scene
    has an instance with a bad mesh index, a vertex whose key is no int or a dangling face index. *)
Theorem C65_import : forall (T : Type) (NT : Num T) (ams : list (aimesh T)) (root : ainode T) (parent : trans3 T) (scale : vec3 T) (transform : bool),
  let insts := s_insts [] root in
  let place ch := imp_point (fold_left tmul ch parent) scale transform in
  (N.of_nat (s_nverts ams (map snd insts)) < 2 ^ 32)%N ->
  match constructMesh ams root parent scale transform mesh_new with
  | Ret m => (forall ch i, In (ch, i) insts -> s_inst_ok (imp_key scale) ams i) /\
             m_points m = s_all_points (imp_key scale) place ams insts /\
             exists l, s_all_soup (imp_key scale) place ams insts = Some l /\ soup_of m = Some l
  | UB => exists ch i, In (ch, i) insts /\ ~ s_inst_ok (imp_key scale) ams i
  | _ => False
  end.
Proof.
  intros T NT ams root parent scale transform insts place S.
  pose proof (res_tree ams parent scale transform root [] mesh_new [] eq_refl S) as H.
  change (pose_of parent []) with parent in H.
  destruct (constructMesh ams root parent scale transform mesh_new) as [m| | |]; auto.
  assert (DEC : forall i, s_inst_ok (imp_key scale) ams i \/ ~ s_inst_ok (imp_key scale) ams i).
  { intros i. unfold s_inst_ok. destruct (s_nth ams (N.to_nat i)) as [am|].
    - unfold s_am_ok.
      assert (D : (forall v, In v (am_verts am) -> imp_key scale v <> None) \/ exists v, In v (am_verts am) /\ imp_key scale v = None).
      { induction (am_verts am) as [|v r IH]; [left; intros v []|].
        destruct (imp_key scale v) as [k|] eqn:K; [|right; exists v; cbn; auto].
        destruct IH as [IH|[w [W E]]]; [left|right; exists w; cbn; auto]. intros w [<-|W]; [congruence|auto]. }
      destruct D as [D|[v [I K]]].
      + destruct (s_faces (am_verts am) (am_faces am)) eqn:F.
        * left. exists am. split; auto. split; auto. rewrite F. discriminate.
        * right. intros [am' [[= <-] [_ G]]]. congruence.
      + right. intros [am' [[= <-] [G _]]]. apply (G v I K).
    - right. intros [am' [E _]]. discriminate E. }
  fold insts in H. clearbody insts. clear -H DEC. induction insts as [|[ch i] r IH].
  - exfalso. apply H. intros ch i [].
  - destruct (DEC i) as [D|D]; [|exists ch, i; cbn; auto].
    destruct IH as [ch' [i' [I N]]].
    + intros G. apply H. intros ch' i' [[= <- <-]|I]; eauto.
    + exists ch', i'. cbn; auto.
Qed.
(** every imported mesh is index-valid *)
Theorem C65_valid : forall (T : Type) (NT : Num T) (ams : list (aimesh T)) (root : ainode T) parent scale transform m,
  (N.of_nat (s_nverts ams (map snd (s_insts [] root))) < 2 ^ 32)%N ->
  constructMesh ams root parent scale transform mesh_new = Ret m -> valid_mesh m.
Proof.
  intros T NT ams root parent scale transform m S H. pose proof (C65_import T NT ams root parent scale transform S) as C.
  rewrite H in C. destruct C as [_ [_ [l [_ L]]]]. unfold valid_mesh. apply soup_valid. eauto.
Qed.
(** over the reals: where vertices are put (all node transformations from the mesh's node up to the root, then the scale) *)
Lemma chain_apply : forall ch (p : trans3 R) v, tapply (fold_left tmul ch p) v = tapply p (fold_right tapply v ch).
Proof. induction ch as [|t r IH]; intros p v; cbn; auto. rewrite IH, tapply_tmul. auto. Qed.
Lemma fold_moved : forall ch (v : vec3 R), fold_right tapply v ch = fold_right s_moved v ch.
Proof. induction ch as [|t r IH]; intros v; cbn [fold_right]; [reflexivity|].
  transitivity (tapply t (fold_right s_moved v r)); [f_equal; apply IH | symmetry; apply moved_apply].
Qed.
Theorem C65_placement : forall (scale : vec3 R) (transform : bool) (ch : list (trans3 R)) (v : vec3 R),
  imp_point (fold_left tmul ch tidentity) scale transform v = s_placed scale transform ch v.
Proof.
  intros scale transform ch v. unfold imp_point, s_placed. destruct transform; auto.
  rewrite chain_apply, tapply_id, fold_moved. auto.
Qed.
Theorem C65_key : forall (scale v : vec3 R) a b c, imp_key scale v = Some (a, b, c) <->
  (mm_cell (vx scale * vx v) a /\ int_range a) /\ (mm_cell (vy scale * vy v) b /\ int_range b) /\
  (mm_cell (vz scale * vz v) c /\ int_range c).
Proof.
  intros scale v a b c. unfold imp_key. rewrite <- !toint_R.
  assert (A : forall s x : R, (nofZ 1000 * s * x)%num = (nofZ 1000 * (s * x)%R)%num) by (intros; unR; ring).
  rewrite !A.
  destruct (toint _) as [x|], (toint (nofZ 1000 * (vy scale * vy v)%R)%num) as [y|], (toint (nofZ 1000 * (vz scale * vz v)%R)%num) as [z|]; split;
    try (intros [= <- <- <-]; auto); intros [? [? ?]]; congruence.
Qed.
(** merging moves a vertex by less than 2 mm per axis of the scaled mesh frame (1 mm outside the zero cell) *)
Theorem C65_merge_error : forall (scale v : vec3 R) vs, In v vs -> imp_key scale v <> None ->
  let w := s_rep (imp_key scale) vs v in
  In w vs /\ forall g, (g = vx \/ g = vy \/ g = vz) ->
    (Rabs (g scale * g v - g scale * g w) < 2 / 1000 /\
     (1 <= Rabs (1000 * (g scale * g v)) -> Rabs (g scale * g v - g scale * g w) < 1 / 1000))%R.
Proof.
  intros scale v vs I K. unfold s_rep.
  destruct (find (fun w => s_keyb (imp_key scale v) (imp_key scale w)) vs) as [w|] eqn:F.
  - apply find_some in F. destruct F as [J F]. apply keyb_spec in F. split; auto.
    destruct (imp_key scale v) as [[[a b] c]|] eqn:KV; [|congruence]. symmetry in F.
    apply C65_key in KV, F. destruct KV as [[X1 _] [[Y1 _] [Z1 _]]], F as [[X2 _] [[Y2 _] [Z2 _]]].
    assert (G : forall x y z, mm_cell x z -> mm_cell y z ->
      (Rabs (x - y) < 2/1000 /\ (1 <= Rabs (1000 * x) -> Rabs (x - y) < 1/1000))%R).
    { intros x y z U V. destruct (cell_close _ _ _ U V) as [C1 C2]. split; auto.
      intros W. apply C2. intros ->. destruct U as [[U1 U2] _]. rewrite Rabs_R0 in U2. lra. }
    intros g [-> | [-> | ->]]; eauto.
  - exfalso. apply find_none with (x := v) in F; auto. rewrite (proj2 (keyb_spec _ _) eq_refl) in F. discriminate.
Qed.
(** a two-level scene over doubles: a shared mesh instantiated twice, with near-duplicate vertices, a repeated face and a quad *)
Definition tr (x y z : Z) : trans3 F64 := T3 m3identity (V3 (f x) (f y) (f z)).
Definition ex_am : aimesh F64 :=
  AiMesh [V3 (f 0) (f 0) (f 0); V3 (f 1) (f 0) (f 0); V3 (f 0) (f 1) (f 0); V3 (f 0) (f 0) (nlit 1 10000)]
         [[0; 1; 2]; [3; 1; 2]; [0; 1; 2; 3]; [2; 1; 0]]%N.
Definition ex_scene : ainode F64 := AiNode (tr 1 0 0) [AiNode (tr 0 5 0) [] [0%N]] [0%N].
Example C65_nonvacuous : exists m, constructMesh [ex_am] ex_scene tidentity (V3 (f 2) (f 2) (f 2)) true mesh_new = Ret m /\
  (Nat.eqb (List.length (m_points m)) 6 && Nat.eqb (List.length (m_tris m)) 4 &&
   match m_points m with p :: q :: _ => veqb p (V3 (f 2) (f 10) (f 0)) && veqb q (V3 (f 4) (f 10) (f 0)) | _ => false end)%bool = true.
Proof. apply oret_ex. vm_compute. reflexivity. Qed.
Example C65_ub : constructMesh [ex_am] ex_scene tidentity (V3 (f 3000000) (f 1) (f 1)) true mesh_new = UB /\
  constructMesh [ex_am] (AiNode tidentity [] [1%N]) tidentity (V3 (f 1) (f 1) (f 1)) true mesh_new = UB.
Proof. split; vm_compute; reflexivity. Qed.
Print Assumptions C65_import.
Print Assumptions C65_valid.
Print Assumptions C65_placement.
Print Assumptions C65_key.
Print Assumptions C65_merge_error.

(** ** C78: readMeshFile around constructMesh *)
Lemma suffix_app : forall base e, suffix (String.length e) (base ++ e) = Ret e.
Proof.
  intros base e. unfold suffix.
  assert (L : String.length (base ++ e) = (String.length base + String.length e)%nat).
  { induction base as [|c r IH]; cbn; auto. }
  rewrite L. destruct (Nat.ltb_spec (String.length base + String.length e) (String.length e)); [lia|].
  replace (String.length base + String.length e - String.length e)%nat with (String.length base) by lia. f_equal.
  clear. induction base as [|c r IH]; cbn; auto. induction e as [|c r IH]; cbn; auto. rewrite IH. auto.
Qed.
Lemma suffix_split : forall n s, (n <= String.length s)%nat -> exists base e, s = (base ++ e)%string /\ String.length e = n.
Proof.
  intros n s. induction s as [|c r IH]; cbn; intros H.
  - exists ""%string, ""%string. cbn. split; auto. lia.
  - destruct (Nat.eq_dec n (S (String.length r))) as [->|N].
    + exists ""%string, (String c r). auto.
    + destruct IH as [b [e [-> L]]]; [lia|]. exists (String c b), e. auto.
Qed.
Lemma suffix_short : forall n s, (String.length s < n)%nat -> suffix n s = Exn.
Proof. intros. unfold suffix. destruct (Nat.ltb_spec (String.length s) n); auto. lia. Qed.

(** an unreadable file gives the null pointer; names shorter than three characters throw although the file was read;
    "3ds" files are imported without the node transformations; other names use them *)
Theorem C78_dispatch : forall (T : Type) (NT : Num T) (name : string) (sc : aiscene T) (scale : vec3 T),
  readMeshFile name None scale = Ret None /\
  ((String.length name < 3)%nat -> readMeshFile name (Some sc) scale = Exn) /\
  (forall base, name = (base ++ "3ds")%string ->
     readMeshFile name (Some sc) scale =
     (let* m := constructMesh (as_meshes sc) (as_root sc) tidentity scale false mesh_new in Ret (Some m))) /\
  (forall base e, name = (base ++ e)%string -> String.length e = 3%nat -> e <> "3ds"%string -> e <> "dae"%string ->
     readMeshFile name (Some sc) scale =
     (let* m := constructMesh (as_meshes sc) (as_root sc) tidentity scale true mesh_new in Ret (Some m))).
Proof.
  intros T NT name sc scale. unfold readMeshFile. split; [auto|]. split; [|split].
  - intros L. rewrite suffix_short by auto. auto.
  - intros base ->. change 3%nat with (String.length "3ds"). rewrite suffix_app. reflexivity.
  - intros base e -> L E1 E2. rewrite <- L, suffix_app. cbn [obind].
    apply String.eqb_neq in E1, E2. rewrite E1, E2. reflexivity.
Qed.
(** Collada: a root transformation made of a rotation, a translation and positive axis scales is stripped of the rotation
    and the translation; the axis scales (units) are kept *)
Theorem C78_collada : forall base base' e (ams : list (aimesh R)) (rot : mat3 R) (o : vec3 R) (a b c : R) kids ms (scale : vec3 R),
  rotation rot -> (0 < a)%R -> (0 < b)%R -> (0 < c)%R ->
  String.length e = 3%nat -> e <> "3ds"%string -> e <> "dae"%string ->
  readMeshFile (base ++ "dae") (Some (AiScene ams (AiNode (T3 (m3mul rot (M3 a 0 0 0 b 0 0 0 c)%R) o) kids ms))) scale =
  readMeshFile (base' ++ e) (Some (AiScene ams (AiNode (T3 (M3 a 0 0 0 b 0 0 0 c) (V3 0 0 0))%R kids ms))) scale.
Proof.
  intros base base' e ams rot o a b c kids ms scale Ro A B C L E1 E2. unfold readMeshFile.
  change 3%nat with (String.length "dae") at 1. rewrite suffix_app. rewrite <- L, suffix_app. cbn [obind].
  apply String.eqb_neq in E1, E2. rewrite E1, E2.
  change (("dae" =? "3ds")%string) with false. change (("dae" =? "dae")%string) with true.
  cbn [as_meshes as_root negb tR MathTypes.tt constructMesh].
  rewrite C07_strip_scale by auto.
  assert (E : tmul (tinverse (T3 rot o)) (T3 (m3mul rot (M3 a 0 0 0 b 0 0 0 c)%R) o) =
              tmul tidentity (T3 (M3 a 0 0 0 b 0 0 0 c) (V3 0 0 0))%R).
  { pose proof (tinverse_l (T3 rot o) Ro) as I. 
    assert (X : T3 (m3mul rot (M3 a 0 0 0 b 0 0 0 c)%R) o = tmul (T3 rot o) (T3 (M3 a 0 0 0 b 0 0 0 c) (V3 0 0 0))%R).
    { unfold tmul. cbn [tR MathTypes.tt]. f_equal. destruct rot as [xx xy xz yx yy yz zx zy zz], o as [x y z]. unfold m3mulv, vadd. cbn [vx vy vz mxx mxy mxz myx myy myz mzx mzy mzz]. unR. f_equal; ring. }
    rewrite X, <- tmul_assoc, I. auto. }
  rewrite E. auto.
Qed.
Example C78_nonvacuous : exists m, readMeshFile "b.stl"%string (Some (AiScene [ex_am] ex_scene)) (V3 (f 1) (f 1) (f 1)) = Ret (Some m) /\
  Nat.eqb (List.length (m_points m)) 6 = true.
Proof.
  destruct (oret_ex _ (readMeshFile "b.stl"%string (Some (AiScene [ex_am] ex_scene)) (V3 (f 1) (f 1) (f 1)))
    (fun o => match o with Some m => Nat.eqb (List.length (m_points m)) 6 | None => false end)) as [o [N C]]; [vm_compute; reflexivity|].
  destruct o as [m|]; [|discriminate C]. exists m. auto.
Qed.
Print Assumptions C78_dispatch.
Print Assumptions C78_collada.

(** ** C79: a mesh exported and read back (assimp passing the scene through unchanged) *)
Definition one3 : vec3 R := V3 1%R 1%R 1%R.
Lemma key_one : forall v, imp_key one3 v = vert_key v.
Proof.
  intros v. unfold imp_key, vert_key, one3. cbn [vx vy vz].
  assert (A : forall x : R, (nofZ 1000 * 1%R * x)%num = (nofZ 1000 * x)%num) by (intros; unR; ring).
  rewrite !A. auto.
Qed.
Lemma faces_soup : forall (vs : list (vec3 R)) ts, s_faces vs (map (fun t => [ti1 t; ti2 t; ti3 t]) ts) = s_soup vs (map idx ts).
Proof. induction ts as [|[i j k] r IH]; cbn; auto. rewrite IH. auto. Qed.
Lemma point_one : forall (t : bool) v, imp_point (fold_left tmul [tidentity] tidentity) one3 t v = v.
Proof.
  intros t [x y z]. unfold imp_point. cbn [fold_left].
  assert (E : (if t then tapply (tmul tidentity tidentity) (V3 x y z) else V3 x y z) = V3 x y z).
  { destruct t; auto. rewrite tapply_tmul, !tapply_id. auto. }
  rewrite E. unfold one3. cbn [vx vy vz]. unR. f_equal; ring.
Qed.
Lemma exp_points : forall m : mesh R, map (fun v => V3 (nf32 (vx v)) (nf32 (vy v)) (nf32 (vz v))) (m_points m) = m_points m.
Proof. intros. rewrite <- (map_id (m_points m)) at 2. apply map_ext. intros [x y z]. reflexivity. Qed.
Lemma firsts_ext : forall A K (eqb : K -> K -> bool) (k1 k2 : A -> K) l seen, (forall a, k1 a = k2 a) -> s_firsts eqb k1 seen l = s_firsts eqb k2 seen l.
Proof. induction l as [|a r IH]; cbn; intros seen H; auto. rewrite H. destruct (existsb _ seen); [auto|f_equal; auto]. Qed.
Lemma find_ext : forall A (f1 f2 : A -> bool) l, (forall a, f1 a = f2 a) -> find f1 l = find f2 l.
Proof. induction l as [|a r IH]; cbn; intros H; auto. rewrite H. destruct (f2 a); auto. Qed.
Lemma rep_one : forall vs v, s_rep (imp_key one3) vs v = s_rep vert_key vs v.
Proof. intros. unfold s_rep. rewrite key_one. erewrite find_ext; [reflexivity|]. intros. rewrite key_one. auto. Qed.

Lemma construct_exported : forall (m : mesh R) l t,
  (N.of_nat (List.length (m_points m)) < 2 ^ 32)%N ->
  soup_of m = Some l -> (forall v, In v (m_points m) -> vert_key v <> None) ->
  exists m', constructMesh (as_meshes (exp_scene m)) (as_root (exp_scene m)) tidentity one3 t mesh_new = Ret m' /\
    m_points m' = s_firsts s_keyb vert_key [] (m_points m) /\
    soup_of m' = Some (map (map3 (s_rep vert_key (m_points m))) (s_firsts s_key3b (s_key3 vert_key) [] l)).
Proof.
  intros m l t S M K. unfold exp_scene. cbn [as_meshes as_root]. rewrite exp_points.
  set (am := AiMesh (m_points m) (map (fun t => [ti1 t; ti2 t; ti3 t]) (m_tris m))).
  assert (FS : s_faces (am_verts am) (am_faces am) = Some l) by (unfold am; cbn [am_verts am_faces]; rewrite faces_soup; exact M).
  pose proof (C65_import R NumR [am] (AiNode tidentity [] [0%N]) tidentity one3 t) as C. cbv zeta in C.
  cbn [s_insts flat_map app map snd] in C.
  assert (S' : (N.of_nat (s_nverts [am] [0%N]) < 2 ^ 32)%N) by (cbn; rewrite Nat.add_0_r; exact S).
  specialize (C S').
  assert (OK : s_inst_ok (imp_key one3) [am] 0%N).
  { exists am. split; [reflexivity|]. split; [|rewrite FS; discriminate]. intros v V. rewrite key_one. apply K. exact V. }
  destruct (constructMesh [am] (AiNode tidentity [] [0%N]) tidentity one3 t mesh_new) as [m'| | |]; try contradiction.
  - exists m'. destruct C as [_ [P [l' [L' M']]]]. split; auto.
    cbn [s_all_points s_all_soup s_nth N.to_nat] in P, L'. split.
    + rewrite P, app_nil_r. unfold s_inst_points. rewrite (firsts_ext _ _ _ _ _ _ _ key_one).
      change (am_verts am) with (m_points m). transitivity (map (fun v : vec3 R => v) (s_firsts s_keyb vert_key [] (m_points m))); [|apply map_id]. apply map_ext. intros v. rewrite point_one. auto.
    + rewrite M', <- L'. unfold s_inst_soup. rewrite FS. cbn [option_map]. rewrite app_nil_r. f_equal.
      erewrite firsts_ext; [apply map_ext|].
      * intros [[a b] c]. unfold map3. rewrite !point_one, !rep_one. auto.
      * intros [[a b] c]. unfold s_key3. rewrite !key_one. auto.
  - exfalso. destruct C as [ch [i [[[= <- <-]|[]] N]]]. auto.
Qed.
Lemma normalized_identity : m3normalized m3identity = (m3identity : mat3 R).
Proof.
  pose proof (C07_strip_scale m3identity 1 1 1 (proj1 (conj rigid_identity I)) Rlt_0_1 Rlt_0_1 Rlt_0_1) as H.
  rewrite <- H at 2. f_equal. unfold m3mul, m3identity. cbn [mxx mxy mxz myx myy myz mzx mzy mzz]. unR. f_equal; ring.
Qed.
(** the soup read back has the triangles of the mesh with coinciding vertices (same millimetre cell) merged and repeated triangles dropped *)
Theorem C79_round_trip : forall (name : string) (m : mesh R) l,
  (3 <= String.length name)%nat -> (N.of_nat (List.length (m_points m)) < 2 ^ 32)%N ->
  soup_of m = Some l -> (forall v, In v (m_points m) -> vert_key v <> None) ->
  exists m', readMeshFile name (Some (exp_scene m)) one3 = Ret (Some m') /\
    m_points m' = s_firsts s_keyb vert_key [] (m_points m) /\
    soup_of m' = Some (map (map3 (s_rep vert_key (m_points m))) (s_firsts s_key3b (s_key3 vert_key) [] l)).
Proof.
  intros name m l L S M K. destruct (suffix_split 3 name L) as [base [e [-> E]]]. unfold readMeshFile.
  rewrite <- E, suffix_app. cbn [obind].
  assert (P : (if String.eqb e "dae" then let 'AiNode t _ _ := as_root (exp_scene m) in tinverse (T3 (m3normalized (tR t)) (MathTypes.tt t)) else tidentity) = tidentity).
  { destruct (String.eqb e "dae"); auto. cbn [exp_scene as_root tidentity tR MathTypes.tt]. rewrite normalized_identity.
    change (T3 m3identity (V3 n0 n0 n0)) with (tidentity : trans3 R).
    destruct (C02_monoid (tinverse tidentity) tidentity tidentity) as [_ [_ Q]]. rewrite <- Q. apply tinverse_l, rigid_identity. }
  rewrite P. destruct (construct_exported m l (negb (String.eqb e "3ds")) S M K) as [m' [C [A B]]].
  rewrite C. cbn [obind]. exists m'. auto.
Qed.
Theorem C79_exact : forall (name : string) (m : mesh R) l,
  (3 <= String.length name)%nat -> (N.of_nat (List.length (m_points m)) < 2 ^ 32)%N ->
  soup_of m = Some l -> (forall v, In v (m_points m) -> vert_key v <> None) ->
  NoDup (map vert_key (m_points m)) -> NoDup l ->
  exists m', readMeshFile name (Some (exp_scene m)) one3 = Ret (Some m') /\
    m_points m' = m_points m /\ soup_of m' = Some l.
Proof.
  intros name m l L S M K D DL. destruct (C79_round_trip name m l L S M K) as [m' [C [A B]]].
  exists m'. split; auto. split; [rewrite A; apply gfirsts_id; auto; apply keyb_spec|].
  assert (INJ : forall a b, In a (m_points m) -> In b (m_points m) -> vert_key a = vert_key b -> a = b).
  { clear -D. induction (m_points m) as [|p r IH]; cbn; intros a b I J E; [contradiction|].
    inversion D as [|? ? N D']; subst. destruct I as [<-|I], J as [<-|J]; auto.
    - exfalso. apply N. rewrite E. apply in_map; auto.
    - exfalso. apply N. rewrite <- E. apply in_map; auto. }
  assert (IN : forall a b c, In (a, b, c) l -> In a (m_points m) /\ In b (m_points m) /\ In c (m_points m)).
  { intros a b c. apply (soup_in _ _ _ a b c M). }
  rewrite B. f_equal. rewrite (gfirsts_id s_key3b key3b_spec).
  - rewrite <- (map_id l) at 2. apply map_ext_in. intros [[a b] c] I. destruct (IN _ _ _ I) as [IA [IB IC]].
    assert (Rp : forall v, In v (m_points m) -> s_rep vert_key (m_points m) v = v).
    { intros v V. unfold s_rep. destruct (find _ (m_points m)) as [w|] eqn:F; auto. apply find_some in F. destruct F as [W Q].
      apply keyb_spec in Q. apply INJ; auto. }
    unfold map3. rewrite !Rp by auto. auto.
  - clear -DL INJ IN. induction l as [|[[a b] c] r IH]; cbn; [constructor|]. inversion DL as [|? ? N D']; subst. constructor.
    + intros I. apply N. apply in_map_iff in I. destruct I as [[[a' b'] c'] [E I]]. cbn in E. injection E as E1 E2 E3.
      destruct (IN a b c (or_introl eq_refl)) as [A [B C]], (IN a' b' c' (or_intror I)) as [A' [B' C']].
      rewrite (INJ a a'), (INJ b b'), (INJ c c'); auto.
    + apply IH; auto. intros a' b' c' I. apply IN. right; auto.
Qed.
Definition ex_square : mesh R := MkMesh [V3 0 0 0; V3 1 0 0; V3 1 1 0; V3 0 1 0]%R [TI 0 1 2; TI 0 2 3] 0%R 0%R [].
Example C79_nonvacuous : (forall v, In v (m_points ex_square) -> vert_key v <> None) /\ NoDup (map vert_key (m_points ex_square)) /\
  exists l, soup_of ex_square = Some l /\ NoDup l /\ List.length l = 2%nat.
Proof.
  assert (K0 : forall x y z : bool, vert_key (V3 (if x then 1 else 0) (if y then 1 else 0) (if z then 1 else 0))%R =
     Some (if x then 1000 else 0, if y then 1000 else 0, if z then 1000 else 0)%Z).
  { intros x y z. apply vert_key_R. unfold mm_cell, int_range. cbn [vx vy vz].
    destruct x, y, z; repeat split; try lia; try lra; unfold Rabs; repeat destruct Rcase_abs; lra. }
  pose proof (K0 false false false) as K1. pose proof (K0 true false false) as K2.
  pose proof (K0 true true false) as K3. pose proof (K0 false true false) as K4. cbn iota in *.
  split; [|split].
  - intros v [<-|[<-|[<-|[<-|[]]]]]; congruence.
  - cbn [map ex_square m_points]. rewrite K1, K2, K3, K4. repeat constructor; cbn; intuition discriminate.
  - eexists. split; [reflexivity|]. split; auto. repeat constructor; cbn; auto. intros [E|[]]. injection E. intros. lra.
Qed.
Print Assumptions C79_round_trip.
Print Assumptions C79_exact.

(** ** C70 *)
(** a given format identifier is used in lower case, whatever the file name *)
Definition s_lower (c : ascii) : ascii :=
  if (Nat.leb 65 (nat_of_ascii c) && Nat.leb (nat_of_ascii c) 90)%bool then ascii_of_nat (nat_of_ascii c + 32) else c.
Fixpoint s_map_string (g : ascii -> ascii) (s : string) : string :=
  match s with EmptyString => EmptyString | String c r => String (g c) (s_map_string g r) end.
Fixpoint s_ascii (s : string) : Prop :=
  match s with EmptyString => True | String c r => (nat_of_ascii c < 128)%nat /\ s_ascii r end.
Lemma lower_spec : forall s, s_ascii s -> lower s = Ret (s_map_string s_lower s).
Proof.
  induction s as [|c r IH]; cbn; intros A; auto. destruct A as [A B]. unfold tolower.
  destruct (Nat.leb_spec 128 (nat_of_ascii c)); [lia|]. unfold s_lower. rewrite (IH B).
  destruct (Nat.leb 65 (nat_of_ascii c) && Nat.leb (nat_of_ascii c) 90)%bool; reflexivity.
Qed.
Theorem C70_given_format : forall name format, format <> EmptyString -> s_ascii format ->
  exp_format name format = Ret (s_map_string s_lower format).
Proof.
  intros name format N A. unfold exp_format. rewrite lower_spec by auto. cbn [obind].
  destruct format as [|c r]; [congruence|]. reflexivity.
Qed.
(** without a format: every name "base.ext" with a known extension and at least three characters gets the format of the extension *)
Lemma str_app_assoc : forall a b c : string, ((a ++ b) ++ c = a ++ (b ++ c))%string.
Proof. induction a as [|x r IH]; intros; cbn; auto. rewrite IH. auto. Qed.
Lemma suffix_of_app : forall n b e r, suffix n e = Ret r -> suffix n (b ++ e) = Ret r.
Proof.
  intros n b e r H. unfold suffix in H. destruct (Nat.ltb_spec (String.length e) n) as [|L]; [discriminate|].
  destruct (suffix_split n e L) as [b' [e' [-> E]]]. subst n.
  rewrite <- str_app_assoc, suffix_app. rewrite <- H. f_equal. clear.
  assert (Q : suffix (String.length e') (b' ++ e') = Ret e') by apply suffix_app.
  unfold suffix in Q. destruct (Nat.ltb _ _); [discriminate|]. injection Q. auto.
Qed.
Theorem C70_extension_partial : forall base e fmt, In (e, fmt) s_formats ->
  (3 <= String.length (base ++ "." ++ e))%nat -> exp_format (base ++ "." ++ e) "" = Ret fmt.
Proof.
  intros base e fmt I L. unfold exp_format. cbn [lower obind].
  assert (E3 : forall x, String.length x = 3%nat -> suffix 3 (base ++ "." ++ x) = Ret x).
  { intros x X. rewrite <- str_app_assoc, <- X. apply suffix_app. }
  cbn in I. repeat (destruct I as [I|I]; [injection I as <- <-; try (rewrite E3 by reflexivity; cbn [obind]; reflexivity)|]); try contradiction.
  - destruct (suffix_split 3 (base ++ "." ++ "x") L) as [b' [e' [E E']]].
    assert (S1 : suffix 1 (base ++ "." ++ "x") = Ret "x"%string) by (rewrite <- str_app_assoc; apply (suffix_app _ "x")).
    rewrite S1. rewrite E. rewrite <- E' at 1. rewrite suffix_app. cbn [obind].
    assert (X : suffix 1 e' = Ret "x"%string).
    { destruct (suffix_split 1 e') as [b2 [e2 [-> E2]]]; [lia|]. rewrite E, <- str_app_assoc, <- E2, suffix_app in S1. rewrite <- E2, suffix_app. auto. }
    assert (D : forall k : string, suffix 1 k <> Ret "x"%string -> (e' =? k)%string = false).
    { intros k K. apply String.eqb_neq. intros ->. auto. }
    rewrite !D by (vm_compute; discriminate). reflexivity.
  - rewrite E3 by reflexivity. cbn [obind].
    replace (suffix 1 (base ++ "." ++ "x3d")) with (Ret "d"%string); [reflexivity|]. symmetry.
    apply suffix_of_app. apply (suffix_of_app 1 "." "x3d"). reflexivity.
Qed.
(** what is selected in general: the name ends with the identifier of the format (a dot is not required); every name of at
    least three characters is answered, and the empty format means that no known identifier ends the name *)
Theorem C70_selected_partial : forall name, (3 <= String.length name)%nat -> exists fmt, exp_format name "" = Ret fmt /\
  ((exists base e, In (e, fmt) s_formats /\ name = (base ++ e)%string) \/
   (fmt = EmptyString /\ forall base e g, In (e, g) s_formats -> name <> (base ++ e)%string)).
Proof.
  intros name L. destruct (suffix_split 3 name L) as [base [e [E E']]].
  assert (S3 : suffix 3 name = Ret e) by (rewrite E, <- E'; apply suffix_app).
  destruct (suffix_split 1 name) as [b1 [e1 [F F']]]; [lia|].
  assert (S1 : suffix 1 name = Ret e1) by (rewrite F, <- F'; apply suffix_app).
  unfold exp_format. cbn [lower obind]. rewrite S3, S1. cbn [obind].
  repeat match goal with |- context [if String.eqb e ?k then Ret ?v else _] =>
    destruct (String.eqb_spec e k) as [->|?]; [exists v; split; [reflexivity|]; left; exists base, k; split; [unfold s_formats; cbn; tauto|auto]|] end.
  destruct (String.eqb_spec e1 "x") as [->|?]. { exists "x"%string. split; [reflexivity|]. left. exists b1, "x"%string. split; [unfold s_formats; cbn; tauto|auto]. }
  destruct (String.eqb_spec e "x3d") as [->|?]. { exists "x3d"%string. split; [reflexivity|]. left. exists base, "x3d"%string. split; [unfold s_formats; cbn; tauto|auto]. }
  exists EmptyString. split; [reflexivity|]. right. split; auto. intros b' e' g I N.
  assert (Q : suffix (String.length e') name = Ret e') by (rewrite N; apply suffix_app).
  cbn in I. repeat (destruct I as [I|I]; [injection I as <- <-; cbn [String.length] in Q; congruence|]). contradiction.
Qed.
Theorem C70_short_names : forall name, (String.length name < 3)%nat -> exp_format name "" = Exn.
Proof. intros name L. unfold exp_format. cbn [lower obind]. rewrite suffix_short by auto. auto. Qed.
(** the format is not always that of the extension: a short name throws, an unknown extension ending in x selects "x",
    the extension is case sensitive and needs no dot *)
Theorem C70_refuted :
  (exists name, s_format_of name = "x"%string /\ exp_format name "" = Exn) /\
  (exists name, s_ext name = Some "fbx"%string /\ s_format_of name = ""%string /\ exp_format name "" = Ret "x"%string) /\
  (exists name, s_ext name = None /\ exp_format name "" = Ret "stl"%string) /\
  (exists name, s_ext name = Some "STL"%string /\ exp_format name "" = Ret ""%string).
Proof.
  repeat split.
  - exists ".x"%string. split; vm_compute; reflexivity.
  - exists "scene.fbx"%string. repeat split; vm_compute; reflexivity.
  - exists "pistl"%string. split; vm_compute; reflexivity.
  - exists "PART.STL"%string. split; vm_compute; reflexivity.
Qed.
Example C70_nonvacuous : exp_format "models/chair.v2.dae" "" = Ret "collada"%string /\ exp_format "a.x" "" = Ret "x"%string /\
  exp_format "whatever" "CollaDA" = Ret "collada"%string.
Proof. repeat split; vm_compute; reflexivity. Qed.
Print Assumptions C70_given_format.
Print Assumptions C70_extension_partial.
Print Assumptions C70_selected_partial.
Print Assumptions C70_short_names.
Print Assumptions C70_refuted.
