(** * C100: containment when the segment to the outside point passes exactly through edges and corners *)
From Coq Require Import ZArith NArith List Bool Lia Reals Lra Psatz Permutation.
From Verif Require Import Num MathTypes Outcome Mesh Box Spec P_Tac P_Math P_Mesh P_MeshGeo Props_Mesh ShapeQuery SpecQuery SpecEdge P_Query P_Query2 P_Query3 P_Query5 Props_Query Props_Inside P_Edge P_Edge2 P_Edge3 P_Edge4 P_Edge5 P_Edge6.
Import ListNotations.
Local Open Scope R_scope.

Lemma soup_small : forall (pts : list (vec3 R)) ixs l, s_soup pts ixs = Some l -> (N.of_nat (length pts) <= 4294967296)%N -> forall ix, In ix ixs -> small_ix ix.
Proof.
  intros pts ixs l S L [[i j] k] I. assert (V : s_valid (length pts) ixs) by (apply soup_valid; eauto). destruct (V i j k I) as [A [B C]]. unfold small_ix. lia.
Qed.
Lemma tame_radius : forall (m : mesh R) l rad p, soup_of m = Some l -> s_max_radius (m_points m) rad -> (forall t, In t l -> s_tame p (s_outside rad) t) -> l <> [] -> 0 < rad.
Proof.
  intros m l rad p S [R0 [RB _]] TA NE. destruct R0 as [|Z]; auto. exfalso. subst rad. destruct l as [|[[a b] c] l]; [congruence|].
  assert (I : In (a, b, c) ((a, b, c) :: l)) by (left; auto). destruct (soup_in _ _ _ _ _ _ S I) as [A [B C]].
  assert (Z : forall v, In v (m_points m) -> v = V3 0 0 0).
  { intros v I'. assert (KB := proj1 (norm_sq v 0 (Rle_refl 0)) (RB v I')). destruct v as [x y z]. unfold s_norm2, s_dot in KB. cbn [vx vy vz] in KB. f_equal; nra. }
  destruct (tame_facts _ _ _ (TA _ I)) as [H _]. apply H. unfold hgt. rewrite (Z a A), (Z b B), (Z c C). unq. ring.
Qed.
Lemma outside_near : forall rad, 0 < rad -> forall q', near (rad / 20) q' (s_outside rad) -> ~ s_norm2 q' <= rad * rad.
Proof.
  intros rad R0 [x y z] [A _] B. unfold s_outside in A. cbn [vx] in A. apply Rabs_def2 in A. unfold s_norm2, s_dot in B. cbn [vx vy vz] in B. nra.
Qed.
Lemma outside_ne : forall rad p, 0 < rad -> s_norm p <= rad -> p <> s_outside rad.
Proof. intros rad p R0 NP E. apply (outside_near rad R0 (s_outside rad)); [apply near_refl; lra|]. rewrite <- E. apply norm_sq; lra. Qed.
(** regular segments near the one used, whose end stays outside *)
Lemma moved_end : forall (m : mesh R) l rad p, soup_of m = Some l -> s_max_radius (m_points m) rad -> (forall t, In t l -> s_tame p (s_outside rad) t) -> l <> [] ->
  exists e, 0 < e /\ e <= rad / 20 /\ (forall q' t, near e q' (s_outside rad) -> In t l -> kept p (s_outside rad) q' t) /\
    exists q', near e q' (s_outside rad) /\ forall t, In t l -> nz1 p q' t.
Proof.
  intros m l rad p S MR TA NE. assert (R0 := tame_radius m l rad p S MR TA NE). set (q := s_outside rad) in *. destruct (kept_near p q l) as [r [RP K]].
  exists (Rmin r (rad / 20)). assert (X : 0 < Rmin r (rad / 20)) by (apply Rmin_pos; lra). split; auto. split; [apply Rmin_r|]. split.
  - intros q' t N I. apply K; auto. eapply near_weaken; [apply Rmin_l|eauto].
  - apply regular_near with (q := q); auto. intros t I. apply tame_facts. auto.
Qed.

(** the count is the one of any segment in general position to a point close to the outside point: an edge hit exactly
    counts like a crossing of one of its two triangles when they face the same way and like none when they do not *)
Theorem C100_edges : forall (m : mesh R) ops l rad p, mesh_run mesh_new ops = Ret m -> soup_of m = Some l -> s_max_radius (m_points m) rad ->
  s_closed_surface (map idx (m_tris m)) -> (N.of_nat (length (m_points m)) <= 4294967296)%N -> s_norm p <= rad ->
  (forall t, In t l -> s_tame p (s_outside rad) t) -> s_off_corners p (s_outside rad) (m_points m) ->
  exists e, 0 < e /\ (exists q', s_close e q' (s_outside rad) /\ forall t, In t l -> s_regular p q' t) /\
    forall q' zs, s_close e q' (s_outside rad) -> (forall t, In t l -> s_regular p q' t) -> Forall2 (s_crossing p q') l zs -> mesh_contains m p = Ret (Z.eqb (s_zsum zs) 1).
Proof.
  intros m ops l rad p RUN S MR CL SM NP TA OC. rewrite (contains_R m ops rad p RUN MR). destruct Rlt_dec; [lra|]. destruct l as [|t0 l0] eqn:EL.
  - exists 1. split; [lra|]. split; [exists (s_outside rad); split; [apply near_refl; lra|intros t []]|]. intros q' zs _ _ F. inversion F. subst zs.
    unfold soup_of in S. destruct (m_tris m) as [|t ts]; [reflexivity|]. exfalso. change (map idx (t :: ts)) with ((ti1 t, ti2 t, ti3 t) :: map idx ts) in S.
    destruct (soup_cons _ _ _ _ _ _ S) as [a [b [c [r [_ [_ [_ [_ E]]]]]]]]. discriminate.
  - rewrite <- EL in *. assert (NE : l <> []) by (rewrite EL; discriminate). assert (R0 := tame_radius m l rad p S MR TA NE).
    destruct (moved_end m l rad p S MR TA NE) as [e [E0 [_ [K [q0 Q0]]]]]. exists e. split; auto. split; [exists q0; auto|].
    intros q' zs C RG F. rewrite (crossing_segs _ _ _ _ RG F). apply (edges_count (m_points m) p (s_outside rad) (m_tris m) l (outside_ne rad p R0 NP) S CL); auto.
    + apply (soup_small _ _ _ S SM).
    + apply (off_corners_novert (m_points m) p (s_outside rad) (map idx (m_tris m)) l S OC).
    + intros t I. split; [apply K; auto|apply RG; auto].
Qed.
(** outside a convex set around a closed mesh: not contained, also when the segment hits edges exactly *)
Theorem C100_outside : forall (K : vec3 R -> Prop) (m : mesh R) ops l rad p, mesh_run mesh_new ops = Ret m -> soup_of m = Some l -> s_max_radius (m_points m) rad ->
  s_closed_surface (map idx (m_tris m)) -> (N.of_nat (length (m_points m)) <= 4294967296)%N -> s_convex K -> (forall v, In v (m_points m) -> K v) -> ~ K p ->
  (forall t, In t l -> s_tame p (s_outside rad) t) -> s_off_corners p (s_outside rad) (m_points m) -> mesh_contains m p = Ret false.
Proof.
  intros K m ops l rad p RUN S MR CL SM CV KP NK TA OC. destruct (Rlt_dec rad (s_norm p)) as [F|F]; [eapply C34_far; eauto|]. apply Rnot_lt_le in F.
  rewrite (contains_R m ops rad p RUN MR). destruct Rlt_dec; [lra|]. destruct l as [|t0 l0] eqn:EL.
  - unfold soup_of in S. destruct (m_tris m) as [|t ts]; [reflexivity|]. exfalso. change (map idx (t :: ts)) with ((ti1 t, ti2 t, ti3 t) :: map idx ts) in S.
    destruct (soup_cons _ _ _ _ _ _ S) as [a [b [c [r [_ [_ [_ [_ E]]]]]]]]. discriminate.
  - rewrite <- EL in *. assert (NE : l <> []) by (rewrite EL; discriminate). assert (R0 := tame_radius m l rad p S MR TA NE).
    destruct (moved_end m l rad p S MR TA NE) as [e [E0 [E1 [KE [q' [NQ Q0]]]]]].
    fold h0. rewrite (edges_count (m_points m) p (s_outside rad) (m_tris m) l (outside_ne rad p R0 F) S CL) with (q' := q'); auto.
    + destruct MR as [_ [RB _]]. assert (Z := convex_zero2 (fun v => K v /\ s_norm2 v <= rad * rad) p q' (m_points m) _ l S CL). rewrite Z; auto.
      * intros x y t [A1 A2] [B1 B2] T. split; [apply CV; auto|apply (ball_convex (rad * rad)); auto].
      * intros v I. split; auto. apply norm_sq; auto; lra.
      * tauto.
      * intros [_ B]. revert B. apply outside_near; auto. eapply near_weaken; eauto.
    + apply (soup_small _ _ _ S SM).
    + apply (off_corners_novert (m_points m) p (s_outside rad) (map idx (m_tris m)) l S OC).
Qed.
(** inside a closed convex mesh: contained, also when the segment hits edges or corners exactly *)
Theorem C100_inside : forall (m : mesh R) ops l rad p, mesh_run mesh_new ops = Ret m -> soup_of m = Some l -> s_max_radius (m_points m) rad ->
  s_closed_surface (map idx (m_tris m)) -> (N.of_nat (length (m_points m)) <= 4294967296)%N -> NoDup (m_points m) -> l <> [] ->
  s_convex_mesh (m_points m) l -> s_flat_disjoint l -> s_strictly_inside l p ->
  (forall t, In t l -> s_tame p (s_outside rad) t) -> mesh_contains m p = Ret true.
Proof.
  intros m ops l rad p RUN S MR CL SM ND NE CV FD IN TA. assert (R0 := tame_radius m l rad p S MR TA NE).
  destruct (moved_end m l rad p S MR TA NE) as [e [E0 [E1 [KE [q' [NQ Q0]]]]]].
  assert (KB : forall v, In v (m_points m) -> s_norm2 v <= rad * rad) by (intros v I; destruct MR as [_ [RB _]]; apply norm_sq; auto; lra).
  assert (NB : forall x, near e x (s_outside rad) -> ~ s_norm2 x <= rad * rad) by (intros x X; apply outside_near; auto; eapply near_weaken; eauto).
  assert (GE := inside_ge1 (fun v => s_norm2 v <= rad * rad) p q' (m_points m) _ l S CL (ball_convex _) KB (NB _ NQ) CV IN NE Q0).
  assert (NP : s_norm p <= rad).
  { destruct (Rle_lt_dec (s_norm p) rad) as [|L]; auto. exfalso.
    rewrite (convex_zero2 (fun v => s_norm2 v <= rad * rad) p q' (m_points m) _ l S CL (ball_convex _) KB) in GE; auto; try lia. intros X. apply norm_sq in X; lra. }
  rewrite (contains_R m ops rad p RUN MR). destruct Rlt_dec; [lra|]. fold h0. set (q := s_outside rad) in *.
  assert (PQ := outside_ne rad p R0 NP). assert (SI := soup_small _ _ _ S SM).
  assert (V : (exists i d, In (AVert i d) (acts_of p q (map idx (m_tris m)) l)) \/ forall i d, ~ In (AVert i d) (acts_of p q (map idx (m_tris m)) l)).
  { destruct (Classical_Prop.classic (exists i d, In (AVert i d) (acts_of p q (map idx (m_tris m)) l))) as [|N]; [auto|right]. intros i d I. apply N. eauto. }
  destruct V as [[i [d I]]|N].
  - apply (vert_count (m_points m) p q (m_tris m) l (fun v => s_norm2 v <= rad * rad) i d); auto; [apply ball_convex|]. exists e. auto.
  - rewrite (edges_count (m_points m) p q (m_tris m) l PQ S CL SI TA N q') by auto.
    assert (LE : (0 <= s_zsum (map (segt p q') l) <= 1)%Z).
    { apply inside_le1; auto.
      - intros [[a b] c] I. split; [auto|apply IN; auto].
      - intros [[a b] c] [[a' b'] c'] v I I' V. apply (CV a b c); auto. destruct (soup_in _ _ _ _ _ _ S I') as [A [B C]]. cbn [corners In] in V. destruct V as [<-|[<-|[<-|[]]]]; auto. }
    f_equal. apply Z.eqb_eq. lia.
Qed.
(** both directions, away from corners: contains() decides whether the point is behind all faces *)
Theorem C100_exact : forall (m : mesh R) ops l rad p, mesh_run mesh_new ops = Ret m -> soup_of m = Some l -> s_max_radius (m_points m) rad ->
  s_closed_surface (map idx (m_tris m)) -> (N.of_nat (length (m_points m)) <= 4294967296)%N -> NoDup (m_points m) -> l <> [] ->
  s_convex_mesh (m_points m) l -> s_flat_disjoint l ->
  (forall t, In t l -> s_tame p (s_outside rad) t) -> s_off_corners p (s_outside rad) (m_points m) ->
  exists ans, mesh_contains m p = Ret ans /\ (ans = true <-> s_strictly_inside l p).
Proof.
  intros m ops l rad p RUN S MR CL SM ND NE CV FD TA OC. destruct (Classical_Prop.classic (s_strictly_inside l p)) as [IN|NI].
  - exists true. split; [eapply C100_inside; eauto|tauto].
  - exists false. split; [|split; [discriminate|tauto]].
    assert (X : exists a b c, In (a, b, c) l /\ ~ s_height a b c p <= 0).
    { apply Classical_Prop.NNPP. intros X. apply NI. intros a b c I. destruct (tame_facts _ _ _ (TA _ I)) as [NZ _]. unfold hgt in NZ.
      destruct (Rtotal_order (s_height a b c p) 0) as [H|[H|H]]; auto; exfalso; [auto|]. apply X. exists a, b, c. split; auto. lra. }
    destruct X as [a [b [c [I H]]]]. apply (C100_outside (fun x => s_height a b c x <= 0) m ops l rad p); auto.
    + intros x y t X Y T. pose proof (height_between (a, b, c) x y t) as HB. unfold hgt in HB. rewrite HB. nra.
Qed.

(** ** an octahedron: from its centre the segment leaves through a corner, from a point above the centre through an edge *)
Definition oct_ops : list (mesh_op R) := [OAddPoint (V3 1 0 0); OAddPoint (V3 0 1 0); OAddPoint (V3 (-1) 0 0); OAddPoint (V3 0 (-1) 0); OAddPoint (V3 0 0 1); OAddPoint (V3 0 0 (-1));
  OAddTriangle 0 1 4; OAddTriangle 1 2 4; OAddTriangle 2 3 4; OAddTriangle 3 0 4; OAddTriangle 1 0 5; OAddTriangle 2 1 5; OAddTriangle 3 2 5; OAddTriangle 0 3 5].
Definition oct_soup : list triple :=
  [(V3 1 0 0, V3 0 1 0, V3 0 0 1); (V3 0 1 0, V3 (-1) 0 0, V3 0 0 1); (V3 (-1) 0 0, V3 0 (-1) 0, V3 0 0 1); (V3 0 (-1) 0, V3 1 0 0, V3 0 0 1);
   (V3 0 1 0, V3 1 0 0, V3 0 0 (-1)); (V3 (-1) 0 0, V3 0 1 0, V3 0 0 (-1)); (V3 0 (-1) 0, V3 (-1) 0 0, V3 0 0 (-1)); (V3 1 0 0, V3 0 (-1) 0, V3 0 0 (-1))].
Ltac octc H := destruct H as [H|[H|[H|[H|[H|[H|[H|[H|[]]]]]]]]].
Lemma oct_mesh : exists m, mesh_run mesh_new oct_ops = Ret m /\ soup_of m = Some oct_soup /\ s_max_radius (m_points m) 1 /\ s_closed_surface (map idx (m_tris m)) /\
  (N.of_nat (length (m_points m)) <= 4294967296)%N /\ NoDup (m_points m) /\ s_convex_mesh (m_points m) oct_soup /\ s_flat_disjoint oct_soup /\
  m_points m = [V3 1 0 0; V3 0 1 0; V3 (-1) 0 0; V3 0 (-1) 0; V3 0 0 1; V3 0 0 (-1)].
Proof.
  eexists. split; [reflexivity|]. split; [reflexivity|]. split; [|split; [|split; [|split; [|split; [|split]]]]]; [..|reflexivity].
  - cbn. split; [lra|]. split.
    + intros v H. apply norm_sq; [lra|]. unfold s_norm2. destruct H as [<-|[<-|[<-|[<-|[<-|[<-|[]]]]]]]; tetn; lra.
    + right. exists (V3 1 0 0). split; [left; reflexivity|]. unfold s_norm. replace (s_dot (V3 1 0 0) (V3 1 0 0)) with (1 * 1) by (tetn; ring). apply sqrt_square. lra.
  - cbn. split.
    + repeat (constructor; [cbn; intuition discriminate|]). constructor.
    + intros i j H. cbn in H. repeat (destruct H as [H|H]; [injection H as <- <-; split; [discriminate|cbn; tauto]|]). destruct H.
  - cbn. lia.
  - cbn. repeat (constructor; [cbn; intros H; repeat (destruct H as [H|H]; [injection H; intros; lra|]); destruct H|]). constructor.
  - cbn. intros a b c v I J. octc I; injection I as <- <- <-; destruct J as [<-|[<-|[<-|[<-|[<-|[<-|[]]]]]]]; tetn; lra.
  - unfold s_flat_disjoint, oct_soup. repeat constructor; apply behind_disjoint; unfold hgt; tetn; lra.
Qed.
Lemma edge_gap : forall p a b l1 l2 u, 0 <= l1 -> 0 <= l2 -> 0 <= u -> l1 * l1 <= s_dot (s_diff p a) (s_diff p a) -> l2 * l2 <= s_dot (s_diff b p) (s_diff b p) ->
  s_dot (s_diff b a) (s_diff b a) <= u * u -> u + 1 / 100 <= l1 + l2 -> s_off_edge p a b.
Proof.
  intros p a b l1 l2 u P1 P2 P3 Q1 Q2 Q3 S. unfold s_off_edge, s_norm.
  assert (LB : forall l x, 0 <= l -> l * l <= x -> l <= sqrt x) by (intros l x P Q; rewrite <- (sqrt_square l) by auto; apply sqrt_le_1_alt; auto).
  assert (UB : sqrt (s_dot (s_diff b a) (s_diff b a)) <= u) by (rewrite <- (sqrt_square u) by auto; apply sqrt_le_1_alt; auto).
  pose proof (LB _ _ P1 Q1). pose proof (LB _ _ P2 Q2). lra.
Qed.
Ltac sharp := first [left; tetn; lra | right; tetn; absnum].
Ltac tame1 l1 l2 l3 u e1 e2 u' := unfold s_tame; split; [repeat split; sharp|]; split; [tetn; absnum|]; split; [gap l1 l2 l3 u|]; repeat split; apply (edge_gap _ _ _ e1 e2 u'); tetn; lra.
Lemma oct_centre : forall t, In t oct_soup -> s_tame (V3 0 0 0) (s_outside 1) t.
Proof. intros t H. octc H; subst t; tame1 (9/10) (9/10) (9/10) (18/10) (9/10) (9/10) (15/10). Qed.
Lemma oct_above : forall t, In t oct_soup -> s_tame (V3 0 0 (1/10)) (s_outside 1) t.
Proof. intros t H. octc H; subst t; tame1 (8/10) (8/10) (8/10) (18/10) (8/10) (8/10) (15/10). Qed.
Example C100_nonvacuous : exists m, mesh_run mesh_new oct_ops = Ret m /\ mesh_contains m (V3 0 0 0) = Ret true /\ mesh_contains m (V3 0 0 (1/10)) = Ret true /\
  (exists i t, nth_error (m_points m) i = Some (s_between (V3 0 0 0) (s_outside 1) t) /\ 0 < t < 1) /\
  s_off_corners (V3 0 0 (1/10)) (s_outside 1) (m_points m) /\ s_orient (V3 0 0 (1/10)) (s_outside 1) (V3 1 0 0) (V3 0 0 1) = 0 /\ s_norm (V3 0 0 (1/10)) <= 1.
Proof.
  destruct oct_mesh as [m [RUN [S [MR [CL [LN [ND [CV [FD PTS]]]]]]]]]. exists m. split; auto.
  split; [apply (C100_inside m oct_ops oct_soup 1); auto; [discriminate| |exact oct_centre]; intros a b c I; octc I; injection I as <- <- <-; tetn; lra|].
  split; [apply (C100_inside m oct_ops oct_soup 1); auto; [discriminate| |exact oct_above]; intros a b c I; octc I; injection I as <- <- <-; tetn; lra|].
  split. { exists 0%nat, (10 / 11). rewrite PTS. split; [|lra]. cbn. f_equal. unfold s_between, s_outside. cbn [vx vy vz]. f_equal; lra. }
  split; [|split; [tetn; lra|apply norm_sq; [lra|]; unfold s_norm2; tetn; lra]].
  rewrite PTS. intros v t J T E. unfold s_between, s_outside in E. cbn [vx vy vz] in E. destruct J as [J|[J|[J|[J|[J|[J|[]]]]]]]; rewrite <- J in E; injection E; intros; lra.
Qed.
(** a point outside whose segment passes through two edges exactly *)
Lemma oct_aside : forall t, In t oct_soup -> s_tame (V3 (-3/5) 0 (7/10)) (s_outside 1) t.
Proof.
  intros t H. octc H; subst t; unfold s_tame; (split; [repeat split; sharp|]); (split; [tetn; absnum|]).
  - split; [gap (89/100) (89/100) (187/100) (174/100)|]. split; [|split]; [apply (edge_gap _ _ _ (174/100) (135/100) (142/100)); tetn; lra|apply (edge_gap _ _ _ (135/100) (66/100) (142/100)); tetn; lra|apply (edge_gap _ _ _ (66/100) (174/100) (142/100)); tetn; lra].
  - split; [gap (29/100) (89/100) (106/100) (174/100)|]. split; [|split]; [apply (edge_gap _ _ _ (135/100) (80/100) (142/100)); tetn; lra|apply (edge_gap _ _ _ (80/100) (66/100) (142/100)); tetn; lra|apply (edge_gap _ _ _ (66/100) (135/100) (142/100)); tetn; lra].
  - split; [gap (89/100) (29/100) (106/100) (174/100)|]. split; [|split]; [apply (edge_gap _ _ _ (80/100) (135/100) (142/100)); tetn; lra|apply (edge_gap _ _ _ (135/100) (66/100) (142/100)); tetn; lra|apply (edge_gap _ _ _ (66/100) (80/100) (142/100)); tetn; lra].
  - split; [gap (89/100) (89/100) (187/100) (174/100)|]. split; [|split]; [apply (edge_gap _ _ _ (135/100) (174/100) (142/100)); tetn; lra|apply (edge_gap _ _ _ (174/100) (66/100) (142/100)); tetn; lra|apply (edge_gap _ _ _ (66/100) (135/100) (142/100)); tetn; lra].
  - split; [gap (229/100) (189/100) (187/100) (174/100)|]. split; [|split]; [apply (edge_gap _ _ _ (135/100) (174/100) (142/100)); tetn; lra|apply (edge_gap _ _ _ (174/100) (179/100) (142/100)); tetn; lra|apply (edge_gap _ _ _ (179/100) (135/100) (142/100)); tetn; lra].
  - split; [gap (189/100) (109/100) (106/100) (174/100)|]. split; [|split]; [apply (edge_gap _ _ _ (80/100) (135/100) (142/100)); tetn; lra|apply (edge_gap _ _ _ (135/100) (179/100) (142/100)); tetn; lra|apply (edge_gap _ _ _ (179/100) (80/100) (142/100)); tetn; lra].
  - split; [gap (109/100) (189/100) (106/100) (174/100)|]. split; [|split]; [apply (edge_gap _ _ _ (135/100) (80/100) (142/100)); tetn; lra|apply (edge_gap _ _ _ (80/100) (179/100) (142/100)); tetn; lra|apply (edge_gap _ _ _ (179/100) (135/100) (142/100)); tetn; lra].
  - split; [gap (189/100) (229/100) (187/100) (174/100)|]. split; [|split]; [apply (edge_gap _ _ _ (174/100) (135/100) (142/100)); tetn; lra|apply (edge_gap _ _ _ (135/100) (179/100) (142/100)); tetn; lra|apply (edge_gap _ _ _ (179/100) (174/100) (142/100)); tetn; lra].
Qed.
Example C100_outside_nonvacuous : exists m, mesh_run mesh_new oct_ops = Ret m /\ s_norm (V3 (-3/5) 0 (7/10)) <= 1 /\ s_off_corners (V3 (-3/5) 0 (7/10)) (s_outside 1) (m_points m) /\
  (exists t u, 0 < t < u /\ u < 1 /\ s_between (V3 (-3/5) 0 (7/10)) (s_outside 1) t = s_between (V3 (-1) 0 0) (V3 0 0 1) (49/80) /\
    s_between (V3 (-3/5) 0 (7/10)) (s_outside 1) u = s_between (V3 1 0 0) (V3 0 0 1) (7/100)) /\ mesh_contains m (V3 (-3/5) 0 (7/10)) = Ret false.
Proof.
  destruct oct_mesh as [m [RUN [S [MR [CL [LN [ND [CV [FD PTS]]]]]]]]]. exists m. split; auto. split; [apply norm_sq; [lra|]; unfold s_norm2; tetn; lra|].
  assert (OC : s_off_corners (V3 (-3/5) 0 (7/10)) (s_outside 1) (m_points m)).
  { rewrite PTS. intros v t J T E. unfold s_between, s_outside in E. cbn [vx vy vz] in E. destruct J as [J|[J|[J|[J|[J|[J|[]]]]]]]; rewrite <- J in E; injection E; intros; lra. }
  split; auto. split.
  - exists (1/8), (9/10). split; [lra|]. split; [lra|]. split; unfold s_between, s_outside; cbn [vx vy vz]; f_equal; lra.
  - apply (C100_outside (fun x => - vx x + vz x <= 1) m oct_ops oct_soup 1); auto.
    + intros a b t A B T. unfold s_between. cbn [vx vz]. nra.
    + rewrite PTS. intros v J. destruct J as [<-|[<-|[<-|[<-|[<-|[<-|[]]]]]]]; cbn [vx vz]; lra.
    + cbn [vx vz]. lra.
    + exact oct_aside.
Qed.

(** a segment that only touches a corner: the answer depends on the order in which the triangles were added (doubles).
    All points but one lie above the plane z = 0, the remaining one is the origin, and the query point lies in that plane *)
Definition corner_ops (ts : list (mesh_op F64)) : list (mesh_op F64) :=
  [OAddPoint (V3 (nofZ 0) (nofZ 0) (nofZ 0)); OAddPoint (V3 (nofZ 1) (nofZ 1) (nofZ 1)); OAddPoint (V3 (nofZ (-1)) (nofZ 2) (nofZ 1)); OAddPoint (V3 (nofZ 0) (nofZ (-1)) (nofZ 1))] ++ ts.
Theorem C35_corner_refuted : exists (m m' : mesh F64) ops ops' (p : vec3 F64), mesh_run mesh_new ops = Ret m /\ mesh_run mesh_new ops' = Ret m' /\ m_points m = m_points m' /\ Permutation (m_tris m) (m_tris m') /\
  s_closed_surface (map idx (m_tris m)) /\ neqb (vz p) n0 && negb (neqb (vx p) n0) && forallb (fun v => nltb n0 (vz v) || (neqb (vx v) n0 && neqb (vy v) n0 && neqb (vz v) n0)) (m_points m) = true /\
  mesh_contains m p = Ret true /\ mesh_contains m' p = Ret false.
Proof.
  eexists _, _, (corner_ops [OAddTriangle 0 1 3; OAddTriangle 0 3 2; OAddTriangle 0 2 1; OAddTriangle 1 2 3]), (corner_ops [OAddTriangle 0 1 3; OAddTriangle 0 2 1; OAddTriangle 0 3 2; OAddTriangle 1 2 3]),
    (V3 (nlit (-5) 10) (nofZ 0) (nofZ 0)).
  split; [reflexivity|]. split; [reflexivity|]. split; [reflexivity|]. split; [cbn; apply perm_skip, perm_swap|]. split; [|split; [vm_compute; reflexivity|split; vm_compute; reflexivity]].
  cbn. split.
  - repeat (constructor; [cbn; intuition discriminate|]). constructor.
  - intros i j H. cbn in H. repeat (destruct H as [H|H]; [injection H as <- <-; split; [discriminate|cbn; tauto]|]). destruct H.
Qed.
Print Assumptions C100_edges.
Print Assumptions C100_outside.
Print Assumptions C100_inside.
Print Assumptions C100_exact.
Print Assumptions C35_corner_refuted.
