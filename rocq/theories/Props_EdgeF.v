(** * C121: balls reaching an edge or a corner of a mesh, on doubles *)
From Coq Require Import ZArith NArith List Bool Lia Reals Lra Psatz.
From Flocq Require Import Core BinarySingleNaN.
From Verif Require Import Num MathTypes Outcome Mesh Box Spec SpecRound P_Tac P_Math P_Mesh P_MeshGeo Props_Mesh P_Round P_OctF P_QuatF P_Libm ShapeQuery SpecQuery P_Query P_Query2 P_Query3 P_Query4 P_Query5 P_InsideF P_InsideF2 P_HeightF P_KeyF P_CompF1 P_RangeF Props_Query Props_Inside Props_InsideF SpecEdgeF P_EdgeF P_Mesh Mesh.
Import ListNotations.
Local Open Scope R_scope.
Local Notation fin := (is_finite (prec := 53) (emax := 1024)).

(** one triangle that is hit decides the answer, whatever comes before it *)
Lemma loop_hit : forall (T : Type) (NT : Num T) pts (p : vec3 T) r2 ts l a b c, s_soup pts (map idx ts) = Some l -> In (a, b, c) l -> sphere_tri p r2 a b c = true ->
  sphere_loop pts p r2 ts = Ret true.
Proof.
  intros T NT pts p r2 ts. induction ts as [|t ts IH]; intros l a b c S I H; [cbn in S; injection S as <-; destruct I|].
  change (map idx (t :: ts)) with ((ti1 t, ti2 t, ti3 t) :: map idx ts) in S. cbn [s_soup] in S. rewrite !s_nth_nth_error in S. cbn [sphere_loop]. unfold point_at in *.
  destruct (nth_error pts (N.to_nat (ti1 t))) as [x|]; [|discriminate]. destruct (nth_error pts (N.to_nat (ti2 t))) as [y|]; [|discriminate].
  destruct (nth_error pts (N.to_nat (ti3 t))) as [z|]; [|discriminate]. destruct (s_soup pts (map idx ts)) as [r|] eqn:E; [|discriminate]. injection S as <-.
  cbn [or_ub obind]. destruct I as [[= -> -> ->]|I]; [rewrite H; reflexivity|]. destruct (sphere_tri p r2 x y z); [reflexivity|]. apply (IH r a b c eq_refl I H).
Qed.
Lemma tri_hit : forall (T : Type) (NT : Num T) (p : vec3 T) r2 v1 v2 v3 a b, s_edge v1 v2 v3 a b ->
  nltb (vlength2 (vsub a p)) r2 = true \/ nltb (vlength2 (vsub b p)) r2 = true \/ checkLinesegment p r2 a (vsub b a) = true -> sphere_tri p r2 v1 v2 v3 = true.
Proof.
  intros T NT p r2 v1 v2 v3 a b E H. unfold sphere_tri. cbv zeta.
  destruct E as [[-> ->]|[[-> ->]|[-> ->]]]; destruct H as [H|[H|H]]; rewrite H;
    repeat match goal with |- context [if ?x then true else _] => destruct x; [reflexivity|] end; reflexivity.
Qed.
Lemma norm_2M : forall M v, 0 <= M -> s_bound M v -> s_norm v <= 2 * M.
Proof.
  intros M v M0 [X [Y Z]]. unfold s_norm. rewrite <- (sqrt_square (2 * M)) by lra. apply sqrt_le_1_alt. unfold s_dot.
  assert (SQ : forall x, Rabs x <= M -> x * x <= M * M). { intros x B. apply Rabs_le_inv in B. nra. }
  apply SQ in X, Y, Z. nra.
Qed.
Lemma tiny447 : bpow radix2 (-447) <= uro.
Proof. apply Rle_trans with (bpow radix2 (-60)); [apply bpow_le; lia|]. rewrite bpow_powerRZ. change (powerRZ (IZR radix2) (-60)) with (/ 2 ^ 60). unfold uro. lra. Qed.
Lemma p100 : forall M, 1 <= M <= 1000000 -> 2 * M <= bpow radix2 99.
Proof. intros M H. apply Rle_trans with (bpow radix2 30); [cbn; lra|apply bpow_le; lia]. Qed.
Lemma p900 : forall M v, 1 <= M <= 1000000 -> s_norm v <= 2 * M -> s_norm2 v <= bpow radix2 900.
Proof.
  intros M v H N. apply Rle_trans with (bpow radix2 60); [|apply bpow_le; lia]. assert (E : s_norm v * s_norm v = s_norm2 v) by (apply sqrt_sqrt, norm2_pos).
  rewrite <- E. assert (0 <= s_norm v) by apply sqrt_pos. assert (s_norm v * s_norm v <= (2 * M) * (2 * M)) by (apply Rmult_le_compat; lra). assert (M * M <= 1000000 * 1000000) by (apply Rmult_le_compat; lra). cbn. lra.
Qed.

Section Ball.
  Context (m : mesh F64) (ops : list (mesh_op F64)) (RUN : mesh_run mesh_new ops = Ret m) (M : R) (MB : 1 <= M <= 1000000).
  Context (FP : forall v, In v (m_points m) -> s_finv v) (BP : forall v, In v (m_points m) -> s_bound M (rv v)) (rad : R) (MR : s_max_radius (map rv (m_points m)) rad) (RL : bpow radix2 (-100) <= rad).
  Context (p : vec3 F64) (FC : s_finv p) (BC : s_bound M (rv p)) (r : F64) (FR : s_fin r) (RB : 0 < B2R r <= 1000000).
  Lemma rad_M : rad <= 2 * M.
  Proof.
    destruct MR as [_ [_ [[_ E]|[v [I <-]]]]]; [lra|]. apply in_map_iff in I as [w [<- I]]. apply norm_2M; [lra|auto].
  Qed.
  Lemma exit_F : fin (nsub (vlength p) r) = true /\ fin (fst (getMaxRadius m)) = true /\ Rabs (B2R (fst (getMaxRadius m)) - rad) <= 36 * uro * M /\
    B2R (nsub (vlength p) r) = rnd (B2R (vlength p) - B2R r) /\ Rabs (B2R (vlength p) - s_norm (rv p)) <= 13 * uro * M.
  Proof.
    pose proof rad_M as RM. destruct (C99_radius m ops rad RUN FP MR (conj RL (Rle_trans _ _ _ RM (p100 M MB)))) as [F1 [E1 _]].
    pose proof (norm_2M M (rv p) ltac:(lra) BC) as N. destruct (vlength_any p FC (p900 M _ MB N)) as [F2 E2]. change (sqrt (s_norm2 (rv p))) with (s_norm (rv p)) in E2.
    pose proof uro_pos as UP. pose proof u_small as US. pose proof tiny447 as T. assert (N0 : 0 <= s_norm (rv p)) by apply sqrt_pos.
    assert (UN : uro * s_norm (rv p) <= uro * (2 * M)) by (apply Rmult_le_compat_l; lra). assert (UR : uro * rad <= uro * (2 * M)) by (apply Rmult_le_compat_l; lra). assert (U1 : uro * 1 <= uro * M) by (apply Rmult_le_compat_l; lra).
    assert (E3 : Rabs (B2R (vlength p) - s_norm (rv p)) <= 13 * uro * M) by lra.
    assert (UM : uro * M <= / 1000000000000 * M) by (apply Rmult_le_compat_r; lra).
    destruct (sub_R (vlength p) r F2 FR) as [F3 E4]. { apply big30. apply Rabs_le_inv in E3. apply Rabs_le. lra. }
    split; [exact F3|]. split; [exact F1|]. split; [lra|]. split; [exact E4|exact E3].
  Qed.

  (** a ball that reaches some point of an edge by more than the rounding error is reported to intersect *)
  Theorem C121_edges : forall l v1 v2 v3 a b t, s_soup (m_points m) (map idx (m_tris m)) = Some l -> In (v1, v2, v3) l -> s_edge v1 v2 v3 a b -> 0 <= t <= 1 ->
    s_dist2 (rv p) (s_between (rv a) (rv b) t) + s_slack M (B2R r) <= B2R r * B2R r -> mesh_sphere m p r = Ret true.
  Proof.
    intros l v1 v2 v3 a b t S I E T D. unfold s_slack in D. set (x := s_between (rv a) (rv b) t) in *.
    pose proof uro_pos as UP. pose proof u_small as US. pose proof rad_M as RM. pose proof eta80 as ET. pose proof eta_pos as EP.
    assert (U16 : / 10 ^ 17 <= uro) by (unfold uro; lra).
    assert (IE : In a (m_points m) /\ In b (m_points m)). { destruct (soup_inT _ _ _ _ _ _ _ S I) as [I1 [I2 I3]]. destruct E as [[-> ->]|[[-> ->]|[-> ->]]]; auto. }
    destruct IE as [IA IB]. set (ro := B2R r) in *. assert (RR0 : 0 < ro * ro) by (apply Rmult_lt_0_compat; lra). assert (RR1 : ro * ro <= 1000000 * 1000000) by (apply Rmult_le_compat; lra).
    assert (MM : 1 * 1 <= M * M) by (apply Rmult_le_compat; lra). assert (UMM : uro * 1 <= uro * (M * M)) by (apply Rmult_le_compat_l; lra). assert (URR : 0 < uro * (ro * ro)) by (apply Rmult_lt_0_compat; lra).
    unfold mesh_sphere. destruct exit_F as [F1 [F2 [E2 [E1 E3]]]].
    assert (EX : nltb (fst (getMaxRadius m)) (nsub (vlength p) r) = false).
    { rewrite (ltb_R _ _ F2 F1). apply Rltb_false. rewrite E1. apply rnd_le_gen; [apply gen_B2R|].
      assert (XN : s_norm x <= rad). { destruct MR as [R0 [NB _]]. assert (Q : forall q, In q (m_points m) -> s_norm2 (rv q) <= rad * rad).
        { intros q Q. assert (Q' := NB (rv q) (in_map rv _ _ Q)). unfold s_norm in Q'. unfold s_norm2. apply sqrt_le_0; [apply norm2_nonneg|nra|]. rewrite sqrt_square by lra. exact Q'. }
        unfold s_norm. rewrite <- (sqrt_square rad) by lra. apply sqrt_le_1_alt. apply (convex_norm (rv a) (rv b) (rv b)); auto. exists (1 - t), t, 0. split; [lra|]. split; [lra|]. split; [lra|]. split; [ring|]. unfold x, s_between. f_equal; ring. }
      assert (PN : s_norm (rv p) <= s_norm x + s_dist (rv p) x). { rewrite dist_norm. apply norm_tri. destruct (rv p) as [p1 p2 p3], x as [x1 x2 x3]. unfold s_diff. cbn [vx vy vz]. f_equal; ring. }
      assert (D0 : 0 <= s_dist (rv p) x) by apply dist_pos. assert (DD : s_dist (rv p) x * s_dist (rv p) x = s_dist2 (rv p) x) by (unfold s_dist; apply sqrt_sqrt; unfold s_dist2; repeat apply Rplus_le_le_0_compat; apply pow2_ge_0).
      set (d := s_dist (rv p) x) in *. rewrite <- DD in D.
      assert (AG : uro * (2 * (M * ro)) <= uro * (M * M + ro * ro)) by (apply Rmult_le_compat_l; [lra|]; pose proof (Rle_0_sqr (M - ro)) as G; unfold Rsqr in G; lra).
      assert (UMR : 0 <= uro * (M * ro)) by (apply Rmult_le_pos; [lra|apply Rmult_le_pos; lra]).
      assert (DR : d <= ro). { destruct (Rle_dec d ro); auto. exfalso. assert (ro * ro < d * d) by (apply Rmult_le_0_lt_compat; lra). lra. }
      assert (G : 1000 * (uro * M) <= ro - d).
      { apply (Rmult_le_reg_r (2 * ro)); [lra|]. assert (P : (ro - d) * (ro + d) <= (ro - d) * (2 * ro)) by (apply Rmult_le_compat_l; lra). lra. }
      apply Rabs_le_inv in E2, E3. fold ro. assert (0 < uro * M) by (apply Rmult_lt_0_compat; lra). lra. }
    rewrite EX. destruct zero_R as [F0 E0].
    assert (PS : nltb n0 r = true) by (rewrite (ltb_R _ _ F0 FR); apply Rltb_true; rewrite E0; fold ro; lra). rewrite PS.
    destruct (mul_R r r FR FR) as [FS ES]; [apply big30; fold ro; rewrite Rabs_pos_eq; lra|]. fold ro in ES. pose proof (rnd_err (ro * ro)) as GR. rewrite <- ES, (Rabs_pos_eq (ro * ro)) in GR by lra. apply Rabs_le_inv in GR.
    assert (UR1 : uro * (ro * ro) <= / 1000000000000 * (ro * ro)) by (apply Rmult_le_compat_r; lra).
    rewrite (loop_hit _ _ _ _ _ _ l v1 v2 v3 S I); [reflexivity|]. apply (tri_hit _ _ p (nmul r r) v1 v2 v3 a b E).
    apply (edge_F M MB p a b FC (FP a IA) (FP b IB) BC (BP a IA) (BP b IB) t T (nmul r r) FS); [lra|]. fold x. lra.
  Qed.

  (** a ball that stays clear of the mesh's bounding sphere is reported not to intersect *)
  Theorem C121_far : rad + B2R r + 60 * uro * M < s_norm (rv p) -> mesh_sphere m p r = Ret false.
  Proof.
    intros H. destruct exit_F as [F1 [F2 [E2 [E1 E3]]]]. unfold mesh_sphere. pose proof uro_pos as UP. pose proof u_small as US. pose proof rad_M as RM.
    assert (UM : 0 < uro * M) by (apply Rmult_lt_0_compat; lra). assert (UM1 : uro * M <= / 1000000000000 * M) by (apply Rmult_le_compat_r; lra).
    pose proof (norm_2M M (rv p) ltac:(lra) BC) as N. pose proof (bpow_gt_0 radix2 (-100)) as B0. apply Rabs_le_inv in E2, E3.
    assert (EX : nltb (fst (getMaxRadius m)) (nsub (vlength p) r) = true).
    { rewrite (ltb_R _ _ F2 F1). apply Rltb_true. rewrite E1. set (y := B2R (vlength p) - B2R r) in *. assert (Y : 0 <= y <= 3 * M) by (unfold y; lra).
      assert (G : Rabs (rnd y - y) <= uro * Rabs y) by (unfold y; replace (B2R (vlength p) - B2R r) with (B2R (vlength p) + - B2R r) by ring; apply rnd_plus; [apply gen_B2R|apply generic_format_opp, gen_B2R]).
      rewrite (Rabs_pos_eq y) in G by lra. assert (uro * y <= uro * (3 * M)) by (apply Rmult_le_compat_l; lra). apply Rabs_le_inv in G. unfold y in *. lra. }
    rewrite EX. reflexivity.
  Qed.
End Ball.

(** a tetrahedron of doubles: a ball at (0, 2, 1) of radius 2 reaches the middle of an edge, a ball at (0, 9, 0) of radius 2 is clear *)
Lemma tetF_soup : exists m, mesh_run mesh_new tetF_ops = Ret m /\ exists l, s_soup (m_points m) (map idx (m_tris m)) = Some l /\
  In (V3 (f0 2) (f0 1) (f0 2), V3 (f0 (-2)) (f0 1) (f0 1), V3 (f0 0) (f0 (-2)) (f0 1)) l.
Proof. eexists. split; [reflexivity|]. eexists. split; [reflexivity|]. left. reflexivity. Qed.
Definition farF : vec3 F64 := V3 (f0 0) (f0 9) (f0 0).
Example C121_nonvacuous : exists m, mesh_run mesh_new tetF_ops = Ret m /\
  s_dist2 (rv tetF_out) (s_between (rv (V3 (f0 2) (f0 1) (f0 2))) (rv (V3 (f0 (-2)) (f0 1) (f0 1))) (1 / 2)) + s_slack 10 2 <= 2 * 2 /\ mesh_sphere m tetF_out (f0 2) = Ret true /\
  3 + 2 + 60 * uro * 10 < s_norm (rv farF) /\ mesh_sphere m farF (f0 2) = Ret false.
Proof.
  destruct tetF_mesh as [m [RUN [FP [PTS TRI]]]]. destruct tetF_soup as [m' [RUN' [l [S I]]]]. rewrite RUN in RUN'. injection RUN' as <-.
  assert (E2 : B2R (f0 2) = 2) by (exact (f_equal vx (rvF 2 2 2 eq_refl eq_refl eq_refl))). assert (F2 : s_fin (f0 2)) by (apply f0_fin; reflexivity).
  assert (MR : s_max_radius (map rv (m_points m)) 3).
  { rewrite PTS. destruct tet_mesh as [mr [RUNR [SR [MRR _]]]]. assert (PR : m_points mr = [V3 2 1 2; V3 (-2) 1 1; V3 0 (-2) 1; V3 0 0 (-2)]) by (injection RUNR as <-; reflexivity). rewrite PR in MRR. exact MRR. }
  assert (BP : forall v, In v (m_points m) -> s_bound 10 (rv v)).
  { intros v H. apply (in_map rv) in H. rewrite PTS in H. destruct H as [<-|[<-|[<-|[<-|[]]]]]; unfold s_bound; cbn [vx vy vz]; repeat split; apply Rabs_le; lra. }
  assert (RL : bpow radix2 (-100) <= 3) by (apply Rle_trans with (bpow radix2 0); [apply bpow_le; lia|cbn; lra]).
  assert (EO : rv tetF_out = V3 0 2 1) by (unfold tetF_out; rewrite rvF by reflexivity; reflexivity). assert (FO : s_finv tetF_out) by (split; [|split]; apply f0_fin; reflexivity).
  assert (EF : rv farF = V3 0 9 0) by (unfold farF; rewrite rvF by reflexivity; reflexivity). assert (FF : s_finv farF) by (split; [|split]; apply f0_fin; reflexivity).
  assert (BO : s_bound 10 (rv tetF_out)) by (rewrite EO; unfold s_bound; cbn [vx vy vz]; repeat split; apply Rabs_le; lra).
  assert (BF : s_bound 10 (rv farF)) by (rewrite EF; unfold s_bound; cbn [vx vy vz]; repeat split; apply Rabs_le; lra).
  assert (D : s_dist2 (rv tetF_out) (s_between (rv (V3 (f0 2) (f0 1) (f0 2))) (rv (V3 (f0 (-2)) (f0 1) (f0 1))) (1 / 2)) + s_slack 10 2 <= 2 * 2).
  { rewrite EO, !rvF by reflexivity. unfold s_dist2, s_between, s_slack, uro. cbn [vx vy vz]. lra. }
  assert (N : 3 + 2 + 60 * uro * 10 < s_norm (rv farF)).
  { rewrite EF. unfold s_norm, s_dot. cbn [vx vy vz]. replace (0 * 0 + 9 * 9 + 0 * 0) with (9 * 9) by ring. rewrite sqrt_square by lra. unfold uro. lra. }
  assert (RB : 0 < B2R (f0 2) <= 1000000) by (rewrite E2; lra). assert (MB : 1 <= 10 <= 1000000) by lra.
  exists m. split; [exact RUN|]. split; [exact D|]. split.
  - apply (C121_edges m tetF_ops RUN 10 MB FP BP 3 MR RL tetF_out FO BO (f0 2) F2 RB l _ _ _ _ _ (1 / 2) S I (or_introl (conj eq_refl eq_refl)) ltac:(lra)). rewrite E2. exact D.
  - split; [exact N|]. apply (C121_far m tetF_ops RUN 10 MB FP BP 3 MR RL farF FF BF (f0 2) F2 RB). rewrite E2. exact N.
Qed.
Print Assumptions C121_edges.
Print Assumptions C121_far.
