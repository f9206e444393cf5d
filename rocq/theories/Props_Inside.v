(** * C87: points inside closed meshes *)
From Coq Require Import ZArith NArith List Bool Lia Reals Lra.
From Verif Require Import Num MathTypes Outcome Mesh Box Spec P_Tac P_Math P_Mesh P_MeshGeo Props_Mesh ShapeQuery SpecQuery P_Query P_Query2 P_Query3 P_Query5 Props_Query.
Import ListNotations.
Local Open Scope R_scope.

Lemma strictly_inside_radius : forall (m : mesh R) ops l rad p, mesh_run mesh_new ops = Ret m -> soup_of m = Some l -> s_max_radius (m_points m) rad ->
  s_closed_surface (map idx (m_tris m)) -> l <> [] -> s_convex_mesh (m_points m) l -> s_strictly_inside l p -> (forall t, In t l -> nz1 p (s_outside rad) t) ->
  (1 <= s_zsum (map (segt p (s_outside rad)) l))%Z /\ s_norm p <= rad.
Proof.
  intros m ops l rad p RUN S MR CL NE CV IN G. destruct MR as [R0 [RB _]].
  assert (KB : forall v, In v (m_points m) -> s_norm2 v <= rad * rad) by (intros v I; apply norm_sq; auto).
  assert (RP : 0 < rad).
  { destruct R0 as [|Z]; auto. exfalso. subst rad. destruct l as [|[[a b] c] l]; [congruence|].
    assert (I : In (a, b, c) ((a, b, c) :: l)) by (left; auto). destruct (soup_in _ _ _ _ _ _ S I) as [A [B C]].
    assert (Z : forall v, In v (m_points m) -> v = V3 0 0 0).
    { intros v I'. specialize (KB v I'). destruct v as [x y z]. unfold s_norm2, s_dot in KB. cbn [vx vy vz] in KB. f_equal; nra. }
    specialize (IN a b c I). rewrite (Z a A), (Z b B), (Z c C) in IN. revert IN. unq. lra. }
  assert (NB : ~ s_norm2 (s_outside rad) <= rad * rad) by (unfold s_outside, s_norm2, s_dot; cbn [vx vy vz]; nra).
  assert (GE := inside_ge1 (fun v => s_norm2 v <= rad * rad) p (s_outside rad) (m_points m) _ l S CL (ball_convex _) KB NB CV IN NE G). split; auto.
  destruct (Rle_lt_dec (s_norm p) rad) as [|L]; auto. exfalso.
  assert (Z := convex_zero2 (fun v => s_norm2 v <= rad * rad) p (s_outside rad) (m_points m) _ l S CL (ball_convex _) KB). rewrite Z in GE; auto; try lia.
  intros X. apply norm_sq in X; lra.
Qed.

(** in a closed convex mesh whose triangles face outwards and do not overlap, contains() holds at every point strictly
    behind all faces, for points in general position with respect to the outside point used by the code *)
Theorem C87_inside : forall (m : mesh R) ops l rad p, mesh_run mesh_new ops = Ret m -> soup_of m = Some l -> s_max_radius (m_points m) rad ->
  s_closed_surface (map idx (m_tris m)) -> l <> [] -> s_convex_mesh (m_points m) l -> s_flat_disjoint l -> s_strictly_inside l p ->
  (forall t, In t l -> s_generic p (s_outside rad) t) -> mesh_contains m p = Ret true.
Proof.
  intros m ops l rad p RUN S MR CL NE CV FD IN G. assert (N : forall t, In t l -> nz1 p (s_outside rad) t) by (intros t I; apply generic_nz1; auto).
  destruct (strictly_inside_radius m ops l rad p RUN S MR CL NE CV IN N) as [GE NP].
  destruct (C34_general m ops l rad p RUN S MR NP G) as [zs [F ->]]. rewrite (crossing_segs _ _ _ _ N F).
  assert (LE : (0 <= s_zsum (map (segt p (s_outside rad)) l) <= 1)%Z).
  { apply inside_le1; auto.
    - intros [[a b] c] I. split; [auto|apply IN; auto].
    - intros [[a b] c] [[a' b'] c'] v I I' V. apply (CV a b c); auto. destruct (soup_in _ _ _ _ _ _ S I') as [A [B C]]. cbn [corners In] in V. destruct V as [<-|[<-|[<-|[]]]]; auto. }
  f_equal. apply Z.eqb_eq. lia.
Qed.
(** both directions: contains() decides whether the point is behind all faces *)
Theorem C87_exact : forall (m : mesh R) ops l rad p, mesh_run mesh_new ops = Ret m -> soup_of m = Some l -> s_max_radius (m_points m) rad ->
  s_closed_surface (map idx (m_tris m)) -> l <> [] -> s_convex_mesh (m_points m) l -> s_flat_disjoint l ->
  (forall t, In t l -> s_generic p (s_outside rad) t) ->
  exists ans, mesh_contains m p = Ret ans /\ (ans = true <-> s_strictly_inside l p).
Proof.
  intros m ops l rad p RUN S MR CL NE CV FD G. destruct (Classical_Prop.classic (s_strictly_inside l p)) as [IN|NI].
  - exists true. split; [eapply C87_inside; eauto|tauto].
  - exists false. split; [|split; [discriminate|tauto]].
    assert (X : exists a b c, In (a, b, c) l /\ ~ s_height a b c p <= 0).
    { apply Classical_Prop.NNPP. intros X. apply NI. intros a b c I. destruct (generic_nz1 _ _ _ (G _ I)) as [_ [NZ _]].
      destruct (Rtotal_order (s_height a b c p) 0) as [H|[H|H]]; auto; exfalso; [auto|]. apply X. exists a, b, c. split; auto. lra. }
    destruct X as [a [b [c [I H]]]]. apply (C35_convex_partial (fun x => s_height a b c x <= 0) m ops l rad p); auto.
    intros x y t X Y T. pose proof (height_between (a, b, c) x y t) as HB. unfold hgt in HB. rewrite HB. nra.
Qed.
(** any closed mesh, convex or not: along a straight line the crossing count changes by the signed number of triangles crossed *)
Theorem C87_path : forall (m : mesh R) ops l rad p p' zs zs' ws, mesh_run mesh_new ops = Ret m -> soup_of m = Some l -> s_max_radius (m_points m) rad ->
  s_closed_surface (map idx (m_tris m)) -> s_norm p <= rad -> s_norm p' <= rad -> (forall t, In t l -> s_general p p' (s_outside rad) t) ->
  (forall t, In t l -> s_generic p (s_outside rad) t) -> (forall t, In t l -> s_generic p' (s_outside rad) t) ->
  Forall2 (s_crossing p p') l ws -> Forall2 (s_crossing p (s_outside rad)) l zs -> Forall2 (s_crossing p' (s_outside rad)) l zs' ->
  s_zsum zs = (s_zsum ws + s_zsum zs')%Z /\ mesh_contains m p = Ret (Z.eqb (s_zsum ws + s_zsum zs') 1) /\ mesh_contains m p' = Ret (Z.eqb (s_zsum zs') 1).
Proof.
  intros m ops l rad p p' zs zs' ws RUN S MR CL N1 N2 GG G1 G2 FW FZ FZ'.
  assert (E : s_zsum zs = (s_zsum ws + s_zsum zs')%Z).
  { rewrite (crossing_segs _ _ _ _ (fun t I => generic_nz1 _ _ _ (G1 t I)) FZ), (crossing_segs _ _ _ _ (fun t I => generic_nz1 _ _ _ (G2 t I)) FZ').
    rewrite (crossing_segs p p' l ws); [|intros t I; apply (general_nz1 p p' (s_outside rad)); auto|auto].
    pose proof (link_sum p p' (s_outside rad) (m_points m) _ l S CL GG) as LS.
    assert (ANTI : s_zsum (map (segt (s_outside rad) p) l) = (- s_zsum (map (segt p (s_outside rad)) l))%Z).
    { clear. induction l as [|[[x y] z] l IH]; [reflexivity|]. set (q := s_outside rad) in *.
      change (seg q p x y z + s_zsum (map (segt q p) l) = - (seg p q x y z + s_zsum (map (segt p q) l)))%Z. rewrite IH, seg_anti. lia. }
    lia. }
  split; auto. destruct (C34_general m ops l rad p RUN S MR N1 G1) as [ys [Y ->]]. destruct (C34_general m ops l rad p' RUN S MR N2 G2) as [ys' [Y' ->]].
  rewrite (crossing_segs _ _ _ _ (fun t I => generic_nz1 _ _ _ (G1 t I)) Y), (crossing_segs _ _ _ _ (fun t I => generic_nz1 _ _ _ (G2 t I)) Y').
  rewrite <- (crossing_segs _ _ _ _ (fun t I => generic_nz1 _ _ _ (G1 t I)) FZ), <- (crossing_segs _ _ _ _ (fun t I => generic_nz1 _ _ _ (G2 t I)) FZ'). rewrite E. auto.
Qed.

(** ** the tetrahedron of Props_Query meets the hypotheses *)
Lemma inner_zero : forall t x, s_inner t x -> hgt t x = 0.
Proof.
  intros [[a b] c] x [u [v [w [U [V [W [S ->]]]]]]]. unfold hgt. rewrite height_tri by auto.
  replace (s_height a b c a) with 0 by (unq; ring). replace (s_height a b c b) with 0 by (unq; ring). replace (s_height a b c c) with 0 by (unq; ring). ring.
Qed.
Lemma inner_neg : forall t a b c x, s_inner (a, b, c) x -> hgt t a <= 0 -> hgt t b <= 0 -> hgt t c <= 0 -> hgt t a + hgt t b + hgt t c < 0 -> hgt t x < 0.
Proof. intros [[a' b'] c'] a b c x [u [v [w [U [V [W [S ->]]]]]]] A B C N. unfold hgt in *. rewrite height_tri by auto.
  destruct A as [A|A]; [nra|]. destruct B as [B|B]; [nra|]. nra. Qed.
Lemma behind_disjoint : forall t a b c, hgt t a <= 0 -> hgt t b <= 0 -> hgt t c <= 0 -> hgt t a + hgt t b + hgt t c < 0 -> forall x, ~ (s_inner t x /\ s_inner (a, b, c) x).
Proof. intros t a b c A B C N x [I J]. apply inner_zero in I. pose proof (inner_neg t a b c x J A B C N). lra. Qed.
Example C87_nonvacuous : exists m l, mesh_run mesh_new tet_ops = Ret m /\ soup_of m = Some l /\ s_max_radius (m_points m) 3 /\ s_closed_surface (map idx (m_tris m)) /\
  l <> [] /\ s_convex_mesh (m_points m) l /\ s_flat_disjoint l /\ s_strictly_inside l (V3 0 (1/10) (1/5)) /\
  (forall t, In t l -> s_generic (V3 0 (1/10) (1/5)) (s_outside 3) t).
Proof.
  destruct tet_mesh as [m [RUN [S [MR [CL _]]]]]. exists m, tet_soup. do 4 (split; [assumption|]). split; [discriminate|].
  assert (PTS : m_points m = [V3 2 1 2; V3 (-2) 1 1; V3 0 (-2) 1; V3 0 0 (-2)]) by (injection RUN as <-; reflexivity).
  split; [|split; [|split; [|exact tet_in]]].
  - intros a b c v I J. rewrite PTS in J. destruct I as [I|[I|[I|[I|[]]]]]; injection I as <- <- <-; destruct J as [<-|[<-|[<-|[<-|[]]]]]; tetn; lra.
  - unfold s_flat_disjoint, tet_soup. repeat constructor; apply behind_disjoint; unfold hgt; tetn; lra.
  - intros a b c I. destruct I as [I|[I|[I|[I|[]]]]]; injection I as <- <- <-; tetn; lra.
Qed.
Print Assumptions C87_inside.
Print Assumptions C87_exact.
Print Assumptions C87_path.
