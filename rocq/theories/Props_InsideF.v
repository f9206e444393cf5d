(** * C99: point containment on doubles *)
From Coq Require Import ZArith NArith List Bool Lia Reals Lra.
From Flocq Require Import Core BinarySingleNaN.
From Verif Require Import Num MathTypes Outcome Mesh Box Spec SpecRound P_Tac P_Math P_Mesh P_MeshGeo Props_Mesh P_Round ShapeQuery SpecQuery SpecInsideF P_Query P_Query2 P_Query3 P_Query5 P_InsideF P_InsideF2 Props_Query Props_Inside.
Import ListNotations.
Local Open Scope R_scope.

(** the maximum radius and its square on doubles, for a mesh of finite points built by any sequence of operations *)
Theorem C99_radius : forall (m : mesh F64) ops rad, mesh_run mesh_new ops = Ret m -> (forall v, In v (m_points m) -> s_finv v) ->
  s_max_radius (map rv (m_points m)) rad -> bpow radix2 (-100) <= rad <= bpow radix2 99 ->
  s_fin (fst (getMaxRadius m)) /\ Rabs (B2R (fst (getMaxRadius m)) - rad) <= 18 * uro * rad /\
  s_fin (fst (getSquaredMaxRadius m)) /\ Rabs (B2R (fst (getSquaredMaxRadius m)) - rad * rad) <= 16 * uro * (rad * rad).
Proof.
  intros m ops rad RUN FP MR RR. destruct (C12_doubles m ops RUN) as [E1 E2]. rewrite E1, E2. unfold getMaxRadius, getSquaredMaxRadius, uncached. cbn [m_points m_tris m_r m_r2].
  assert (Z : neqb (n0 : F64) n0 = true) by (vm_compute; reflexivity). rewrite Z. cbn [fst snd].
  destruct (radius_F (m_points m) rad RR FP MR) as [FC [EC [FS [ES _]]]]. auto.
Qed.
Print Assumptions C99_radius.

Section Answers.
  (** a mesh of finite doubles built by any sequence of operations, its triangles l, its maximum radius, and a point of moderate size *)
  Context (m : mesh F64) (ops : list (mesh_op F64)) (RUN : mesh_run mesh_new ops = Ret m) (FP : forall v, In v (m_points m) -> s_finv v).
  Context (l : list triple) (SO : s_soup (map rv (m_points m)) (map idx (m_tris m)) = Some l).
  Context (rad : R) (MR : s_max_radius (map rv (m_points m)) rad) (RR : bpow radix2 (-100) <= rad <= bpow radix2 99).
  Context (p : vec3 F64) (PF : s_finv p) (PB : s_bound (bpow radix2 100) (rv p)).

  (** clearly beyond the radius the answer is false *)
  Theorem C99_far : rad * rad + 100 * uro * (rad * rad) <= s_norm2 (rv p) -> mesh_contains m p = Ret false.
  Proof. destruct (decide_F m ops rad p l RUN FP PF PB MR RR SO) as [A _]. exact A. Qed.
  (** within it, the answer tells whether the exact signed crossings add up to one *)
  Theorem C99_general : s_norm2 (rv p) <= rad * rad - 100 * uro * (rad * rad) -> (forall t, In t l -> s_robust rad (rv p) t) ->
    exists zs, Forall2 (s_crossing (rv p) (s_outside rad)) l zs /\ mesh_contains m p = Ret (Z.eqb (s_zsum zs) 1).
  Proof.
    intros N G. destruct (decide_F m ops rad p l RUN FP PF PB MR RR SO) as [_ A]. rewrite (A N G). clear A.
    assert (GE : forall t, In t l -> s_generic (rv p) (s_outside rad) t) by (intros t I; apply robust_generic; [destruct RR as [X _]; pose proof (bpow_gt_0 radix2 (-100)); lra|auto]).
    destruct (loop_generic (map rv (m_points m)) (rv p) (s_outside rad) (m_tris m) l h00 SO GE) as [zs [F _]].
    exists zs. split; auto. rewrite (crossing_segs _ _ _ _ (fun t I => generic_nz1 _ _ _ (GE t I)) F). reflexivity.
  Qed.
  (** the answer on doubles is the answer on the real numbers *)
  Theorem C99_reals : forall (mr : mesh R) opsr, mesh_run mesh_new opsr = Ret mr -> m_points mr = map rv (m_points m) -> m_tris mr = m_tris m ->
    s_off_sphere rad (rv p) -> (forall t, In t l -> s_robust rad (rv p) t) -> mesh_contains m p = mesh_contains mr (rv p).
  Proof.
    intros mr opsr RUNR EP ET OFF G. assert (MR' := MR). rewrite <- EP in MR'. assert (RP : 0 < rad) by (destruct RR as [X _]; pose proof (bpow_gt_0 radix2 (-100)); lra).
    assert (UP := uro_pos). assert (UR : 0 < uro * (rad * rad)) by (apply Rmult_lt_0_compat; auto; nra).
    unfold s_off_sphere in OFF. destruct (Rle_lt_dec (s_norm2 (rv p)) (rad * rad)) as [L|L].
    - rewrite Rabs_left1 in OFF by lra. destruct C99_general as [zs [F ->]]; [lra|auto|].
      assert (GE : forall t, In t l -> s_generic (rv p) (s_outside rad) t) by (intros t I; apply robust_generic; auto).
      assert (SR : soup_of mr = Some l) by (unfold soup_of; rewrite EP, ET; exact SO).
      destruct (C34_general mr opsr l rad (rv p) RUNR SR MR') as [zs' [F' ->]]; auto; [apply norm_sq; lra|].
      rewrite (crossing_segs _ _ _ _ (fun t I => generic_nz1 _ _ _ (GE t I)) F), (crossing_segs _ _ _ _ (fun t I => generic_nz1 _ _ _ (GE t I)) F'). reflexivity.
    - rewrite Rabs_pos_eq in OFF by lra. rewrite C99_far by lra. symmetry. apply (C34_far mr opsr rad); auto.
      destruct (Rle_lt_dec (s_norm (rv p)) rad) as [H|H]; auto. apply norm_sq in H; lra.
  Qed.
  (** in a closed convex mesh whose triangles face outwards and do not overlap, contains() on doubles decides exactly whether the
      point is strictly behind all faces *)
  Theorem C99_convex : s_closed_surface (map idx (m_tris m)) -> l <> [] -> s_convex_mesh (map rv (m_points m)) l -> s_flat_disjoint l ->
    s_off_sphere rad (rv p) -> (forall t, In t l -> s_robust rad (rv p) t) ->
    exists ans, mesh_contains m p = Ret ans /\ (ans = true <-> s_strictly_inside l (rv p)).
  Proof.
    intros CL NE CV FD OFF G. assert (RP : 0 < rad) by (destruct RR as [X _]; pose proof (bpow_gt_0 radix2 (-100)); lra).
    assert (GE : forall t, In t l -> s_generic (rv p) (s_outside rad) t) by (intros t I; apply robust_generic; auto).
    assert (NZ : forall t, In t l -> nz1 (rv p) (s_outside rad) t) by (intros t I; apply generic_nz1; auto).
    destruct MR as [R0 [RB RM]]. assert (KB : forall v, In v (map rv (m_points m)) -> s_norm2 v <= rad * rad) by (intros v I; apply norm_sq; auto).
    assert (NB : ~ s_norm2 (s_outside rad) <= rad * rad) by (unfold s_outside, s_norm2, s_dot; cbn [vx vy vz]; nra).
    assert (UP := uro_pos). assert (UR : 0 < uro * (rad * rad)) by (apply Rmult_lt_0_compat; auto; nra).
    destruct (decide_F m ops rad p l RUN FP PF PB MR RR SO) as [FAR NEAR].
    unfold s_off_sphere in OFF.
    destruct (Classical_Prop.classic (s_strictly_inside l (rv p))) as [IN|NI].
    - exists true. split; [|tauto]. assert (GE1 := inside_ge1 (fun v => s_norm2 v <= rad * rad) (rv p) (s_outside rad) _ _ l SO CL (ball_convex _) KB NB CV IN NE NZ).
      assert (N : s_norm2 (rv p) <= rad * rad).
      { destruct (Rle_lt_dec (s_norm2 (rv p)) (rad * rad)) as [|L]; auto. exfalso.
        assert (Z := convex_zero2 (fun v => s_norm2 v <= rad * rad) (rv p) (s_outside rad) _ _ l SO CL (ball_convex _) KB). rewrite Z in GE1; auto; try lia. lra. }
      rewrite Rabs_left1 in OFF by lra. rewrite NEAR; auto; [|lra]. f_equal. apply Z.eqb_eq.
      assert (LE : (0 <= s_zsum (map (segt (rv p) (s_outside rad)) l) <= 1)%Z).
      { apply inside_le1; auto.
        - intros [[a b] c] I. split; [auto|apply IN; auto].
        - intros [[a b] c] [[a' b'] c'] v I I' V. apply (CV a b c); auto. destruct (soup_in _ _ _ _ _ _ SO I') as [A [B C]]. cbn [corners In] in V. destruct V as [<-|[<-|[<-|[]]]]; auto. }
      lia.
    - exists false. split; [|split; [discriminate|tauto]].
      destruct (Rle_lt_dec (s_norm2 (rv p)) (rad * rad)) as [N|L]; [rewrite Rabs_left1 in OFF by lra|rewrite Rabs_pos_eq in OFF by lra; apply FAR; lra].
      rewrite NEAR; auto; [|lra]. f_equal.
      assert (X : exists a b c, In (a, b, c) l /\ ~ s_height a b c (rv p) <= 0).
      { apply Classical_Prop.NNPP. intros X. apply NI. intros a b c I. destruct (NZ _ I) as [_ [NH _]].
        destruct (Rtotal_order (s_height a b c (rv p)) 0) as [H|[H|H]]; auto; exfalso; [auto|]. apply X. exists a, b, c. split; auto. lra. }
      destruct X as [a [b [c [I H]]]].
      destruct (loop_generic (map rv (m_points m)) (rv p) (s_outside rad) (m_tris m) l h00 SO GE) as [zs [F _]].
      rewrite <- (crossing_segs _ _ _ _ NZ F).
      assert (CX : s_convex (fun x => s_height a b c x <= 0)).
      { intros x y t X Y T. pose proof (height_between (a, b, c) x y t) as HB. unfold hgt in HB. rewrite HB. nra. }
      rewrite (convex_zero (fun x => s_height a b c x <= 0) (rv p) rad (map rv (m_points m)) _ l zs SO CL CX); auto.
      intros [[x y] z] J. destruct (NZ _ J) as [Q _]. exact Q.
  Qed.
End Answers.
Print Assumptions C99_far.
Print Assumptions C99_general.
Print Assumptions C99_reals.
Print Assumptions C99_convex.

(** ** the tetrahedron of Props_Query on doubles meets the hypotheses, with a point inside and a point outside *)
Definition f0 (z : Z) : F64 := nofZ z.
Definition tetF_ops : list (mesh_op F64) := [OAddPoint (V3 (f0 2) (f0 1) (f0 2)); OAddPoint (V3 (f0 (-2)) (f0 1) (f0 1)); OAddPoint (V3 (f0 0) (f0 (-2)) (f0 1)); OAddPoint (V3 (f0 0) (f0 0) (f0 (-2)));
  OAddTriangle 0 1 2; OAddTriangle 0 3 1; OAddTriangle 0 2 3; OAddTriangle 1 3 2].
Definition tetF_in : vec3 F64 := V3 (f0 0) (nlit 1 8) (nlit 1 4).
Definition tetF_out : vec3 F64 := V3 (f0 0) (f0 2) (f0 1).
Lemma f0_fin : forall z, (Z.abs z < 2 ^ 53)%Z -> s_fin (f0 z).
Proof. intros z L. destruct (ofZ_R z L) as [A _]. exact A. Qed.
Lemma rvF : forall x y z, (Z.abs x < 2 ^ 53)%Z -> (Z.abs y < 2 ^ 53)%Z -> (Z.abs z < 2 ^ 53)%Z -> rv (V3 (f0 x) (f0 y) (f0 z)) = V3 (IZR x) (IZR y) (IZR z).
Proof. intros x y z X Y Z. unfold rv, f0. cbn [vx vy vz]. f_equal; apply ofZ_R; auto. Qed.
Lemma tetF_in_rv : s_finv tetF_in /\ rv tetF_in = V3 0 (1 / 8) (1 / 4).
Proof.
  split; [split; [apply f0_fin; reflexivity|split; vm_compute; reflexivity]|]. unfold rv, tetF_in. cbn [vx vy vz]. f_equal.
  - rewrite <- (SF2R_B2SF _ _ (nlit 1 8 : F64)). assert (E : B2SF (nlit 1 8 : F64) = SpecFloat.S754_finite false 4503599627370496 (-55)) by (vm_compute; reflexivity). rewrite E. unfold SF2R, F2R. cbn. lra.
  - rewrite <- (SF2R_B2SF _ _ (nlit 1 4 : F64)). assert (E : B2SF (nlit 1 4 : F64) = SpecFloat.S754_finite false 4503599627370496 (-54)) by (vm_compute; reflexivity). rewrite E. unfold SF2R, F2R. cbn. lra.
Qed.
Lemma tetF_mesh : exists m, mesh_run mesh_new tetF_ops = Ret m /\ (forall v, In v (m_points m) -> s_finv v) /\ map rv (m_points m) = [V3 2 1 2; V3 (-2) 1 1; V3 0 (-2) 1; V3 0 0 (-2)] /\
  map idx (m_tris m) = [(0, 1, 2); (0, 3, 1); (0, 2, 3); (1, 3, 2)]%N.
Proof.
  eexists. split; [reflexivity|]. split; [|split].
  - cbn [m_points]. intros v H. destruct H as [<-|[<-|[<-|[<-|[]]]]]; (split; [|split]; apply f0_fin; reflexivity).
  - transitivity [rv (V3 (f0 2) (f0 1) (f0 2)); rv (V3 (f0 (-2)) (f0 1) (f0 1)); rv (V3 (f0 0) (f0 (-2)) (f0 1)); rv (V3 (f0 0) (f0 0) (f0 (-2)))]; [reflexivity|].
    rewrite !rvF by reflexivity. reflexivity.
  - reflexivity.
Qed.
Lemma area_gapF : forall x1 x2 x3 x4 l1 l2 l3 u, 0 <= l1 -> 0 <= l2 -> 0 <= l3 -> 0 <= u -> l1 * l1 <= x1 -> l2 * l2 <= x2 -> l3 * l3 <= x3 -> x4 <= u * u -> u + 1 / 10 <= l1 + l2 + l3 ->
  1 / 100 <= Rabs (sqrt x1 / 2 + sqrt x2 / 2 + sqrt x3 / 2 - sqrt x4 / 2).
Proof.
  intros x1 x2 x3 x4 l1 l2 l3 u P1 P2 P3 P4 Q1 Q2 Q3 Q4 S.
  assert (LB : forall l x, 0 <= l -> l * l <= x -> l <= sqrt x) by (intros l x P Q; rewrite <- (sqrt_square l) by auto; apply sqrt_le_1_alt; auto).
  assert (UB : sqrt x4 <= u) by (rewrite <- (sqrt_square u) by auto; apply sqrt_le_1_alt; auto).
  pose proof (LB _ _ P1 Q1). pose proof (LB _ _ P2 Q2). pose proof (LB _ _ P3 Q3). rewrite Rabs_pos_eq; lra.
Qed.
Ltac absle := match goal with |- _ <= Rabs ?x => first [rewrite (Rabs_pos_eq x) by lra; lra | rewrite (Rabs_left1 x) by lra; lra] end.
Ltac robust l1 l2 l3 u := unfold s_robust, uro; split; [tetn; absle|]; split; [tetn; absle|]; split; [tetn; absle|]; split; [tetn; absle|];
  apply Rle_trans with (1 / 100); [lra|]; unfold s_area; apply (area_gapF _ _ _ _ l1 l2 l3 u); tetn; lra.
Lemma tetF_in_robust : forall t, In t tet_soup -> s_robust 3 (V3 0 (1 / 8) (1 / 4)) t.
Proof. intros t H. destruct H as [<-|[<-|[<-|[<-|[]]]]]; [robust 5 6 6 13|robust (48/10) (61/10) (48/10) (146/10)|robust (48/10) (48/10) (62/10) (133/10)|robust (48/10) 5 (48/10) 12]. Qed.
Lemma tetF_out_robust : forall t, In t tet_soup -> s_robust 3 (V3 0 2 1) t.
Proof. intros t H. destruct H as [<-|[<-|[<-|[<-|[]]]]]; [robust 8 8 4 13|robust (78/10) (45/10) (87/10) 15|robust 12 8 8 14|robust 12 8 7 12]. Qed.
Example C99_nonvacuous : exists m, mesh_run mesh_new tetF_ops = Ret m /\ (forall v, In v (m_points m) -> s_finv v) /\ s_soup (map rv (m_points m)) (map idx (m_tris m)) = Some tet_soup /\
  s_max_radius (map rv (m_points m)) 3 /\ bpow radix2 (-100) <= 3 <= bpow radix2 99 /\ s_closed_surface (map idx (m_tris m)) /\ tet_soup <> [] /\ s_convex_mesh (map rv (m_points m)) tet_soup /\
  s_flat_disjoint tet_soup /\
  (s_finv tetF_in /\ s_bound (bpow radix2 100) (rv tetF_in) /\ s_off_sphere 3 (rv tetF_in) /\ (forall t, In t tet_soup -> s_robust 3 (rv tetF_in) t) /\ s_strictly_inside tet_soup (rv tetF_in)) /\
  (s_finv tetF_out /\ s_bound (bpow radix2 100) (rv tetF_out) /\ s_off_sphere 3 (rv tetF_out) /\ (forall t, In t tet_soup -> s_robust 3 (rv tetF_out) t) /\ ~ s_strictly_inside tet_soup (rv tetF_out)) /\
  mesh_contains m tetF_in = Ret true /\ mesh_contains m tetF_out = Ret false.
Proof.
  destruct tetF_mesh as [m [RUN [FP [PTS TRI]]]]. exists m. rewrite PTS, TRI.
  destruct tet_mesh as [mr [RUNR [SR [MRR [CLR _]]]]]. destruct C87_nonvacuous as [mr' [lr [RUNR' [SR' [_ [_ [_ [CV [FD _]]]]]]]]].
  rewrite RUNR in RUNR'. injection RUNR' as <-. rewrite SR in SR'. injection SR' as <-.
  assert (PR : m_points mr = [V3 2 1 2; V3 (-2) 1 1; V3 0 (-2) 1; V3 0 0 (-2)]) by (injection RUNR as <-; reflexivity).
  assert (TR : map idx (m_tris mr) = [(0, 1, 2); (0, 3, 1); (0, 2, 3); (1, 3, 2)]%N) by (injection RUNR as <-; reflexivity).
  assert (SO : s_soup [V3 2 1 2; V3 (-2) 1 1; V3 0 (-2) 1; V3 0 0 (-2)] [(0, 1, 2); (0, 3, 1); (0, 2, 3); (1, 3, 2)]%N = Some tet_soup) by reflexivity.
  rewrite PR in MRR, CV. rewrite TR in CLR.
  assert (RR : bpow radix2 (-100) <= 3 <= bpow radix2 99) by (split; [apply Rle_trans with (bpow radix2 0); [apply bpow_le; lia|cbn; lra]|apply Rle_trans with (bpow radix2 2); [cbn; lra|apply bpow_le; lia]]).
  assert (B100 : 2 <= bpow radix2 100) by (change 2 with (bpow radix2 1); apply bpow_le; lia).
  destruct tetF_in_rv as [FI EI]. assert (EO : rv tetF_out = V3 0 2 1) by (unfold tetF_out; rewrite rvF by reflexivity; reflexivity).
  assert (FO : s_finv tetF_out) by (split; [|split]; apply f0_fin; reflexivity).
  assert (BI : s_bound (bpow radix2 100) (V3 0 (1/8) (1/4))) by (unfold s_bound; cbn [vx vy vz]; repeat split; rewrite Rabs_pos_eq; lra).
  assert (BO : s_bound (bpow radix2 100) (V3 0 2 1)) by (unfold s_bound; cbn [vx vy vz]; repeat split; rewrite Rabs_pos_eq; lra).
  assert (OI : s_off_sphere 3 (V3 0 (1/8) (1/4))) by (unfold s_off_sphere, s_norm2, uro; tetn; absle).
  assert (OO : s_off_sphere 3 (V3 0 2 1)) by (unfold s_off_sphere, s_norm2, uro; tetn; absle).
  assert (II : s_strictly_inside tet_soup (V3 0 (1/8) (1/4))) by (intros a b c I; destruct I as [I|[I|[I|[I|[]]]]]; injection I as <- <- <-; tetn; lra).
  assert (IO : ~ s_strictly_inside tet_soup (V3 0 2 1)) by (intros H; specialize (H _ _ _ (or_intror (or_introl eq_refl))); revert H; tetn; lra).
  assert (NE : tet_soup <> []) by discriminate.
  rewrite EI, EO. do 5 (split; [auto|]). split; [exact CLR|]. do 3 (split; [auto|]).
  split; [repeat (split; [auto using tetF_in_robust|]); auto|]. split; [repeat (split; [auto using tetF_out_robust|]); auto|].
  rewrite <- PTS in SO, MRR, CV. rewrite <- TRI in SO, CLR. rewrite <- EI in BI, OI, II. rewrite <- EO in BO, OO, IO. split.
  - destruct (C99_convex m tetF_ops RUN FP tet_soup SO 3 MRR RR tetF_in FI BI CLR NE CV FD OI) as [ans [-> A]]; [rewrite EI; exact tetF_in_robust|]. rewrite (proj2 A II). reflexivity.
  - destruct (C99_convex m tetF_ops RUN FP tet_soup SO 3 MRR RR tetF_out FO BO CLR NE CV FD OO) as [[|] [-> A]]; [rewrite EO; exact tetF_out_robust|exfalso; apply IO; apply A; reflexivity|reflexivity].
Qed.
