(** Containment when the segment passes exactly through edges and corners: the whole mesh *)
From Coq Require Import ZArith NArith List Bool Lia Reals Lra Psatz Permutation.
From Verif Require Import Num MathTypes Outcome Mesh Box Spec P_Tac P_Math P_Mesh P_MeshGeo ShapeQuery SpecQuery SpecEdge P_Query P_Query2 P_Query3 P_Query5 P_Edge P_Edge2 P_Edge3 P_Edge4.
Import ListNotations.
Local Open Scope R_scope.

Definition h0 : hits := Hits 0 (fun _ _ => 0%Z) (fun _ => 0%Z).
Definition edir (a : act) : Z := match a with AEdge _ _ d => d | _ => 0%Z end.
Definition esig (sg : N * N -> Z) (a : act) : Z := match a with AEdge i j _ => sg (i, j) | _ => 0%Z end.
Definition vpart (p q q' : vec3 R) (x : (N * N * N) * triple) : Z := match act_of p q (fst x) (snd x) with AVert _ _ => segt p q' (snd x) | _ => 0%Z end.
Definition sge (pts : list (vec3 R)) (p q' : vec3 R) (e : N * N) : Z := efun pts (fun a b => sgz (s_orient p q' a b)) e.
Lemma moved_total : forall pts p q q', p <> q -> forall ixs l, s_soup pts ixs = Some l ->
  (forall t, In t l -> hgt t p <> 0 /\ hgt t q <> 0 /\ kept p q q' t /\ nz1 p q' t) ->
  (2 * s_zsum (map (segt p q') l))%Z = (2 * gens (acts_of p q ixs l) + s_zsum (map edir (acts_of p q ixs l)) + s_zsum (map (esig (sge pts p q')) (acts_of p q ixs l)) + 2 * s_zsum (map (vpart p q q') (combine ixs l)))%Z.
Proof.
  intros pts p q q' PQ. induction ixs as [|[[i j] k] ixs IH]; intros l S H; [injection S as <-; reflexivity|].
  destruct (soup_cons _ _ _ _ _ _ S) as [a [b [c [r [N1 [N2 [N3 [S' ->]]]]]]]]. specialize (IH r S' (fun t I => H t (or_intror I))).
  destruct (H _ (or_introl eq_refl)) as [HP [HQ [KE NZ]]]. unfold hgt in HP, HQ. pose proof (tri_moved p q q' i j k a b c PQ HP HQ KE NZ) as TM.
  change (acts_of p q ((i, j, k) :: ixs) ((a, b, c) :: r)) with (act_of p q (i, j, k) (a, b, c) :: acts_of p q ixs r).
  change (combine ((i, j, k) :: ixs) ((a, b, c) :: r)) with (((i, j, k), (a, b, c)) :: combine ixs r).
  change (gens (act_of p q (i, j, k) (a, b, c) :: acts_of p q ixs r)) with ((match act_of p q (i, j, k) (a, b, c) with AGen d => d | _ => 0%Z end) + gens (acts_of p q ixs r))%Z.
  cbn [map].
  assert (ZC : forall x y, s_zsum (x :: y) = (x + s_zsum y)%Z) by reflexivity. rewrite !ZC.
  assert (X : (2 * segt p q' (a, b, c))%Z = (2 * (match act_of p q (i, j, k) (a, b, c) with AGen d => d | _ => 0%Z end) + edir (act_of p q (i, j, k) (a, b, c)) + esig (sge pts p q') (act_of p q (i, j, k) (a, b, c)) + 2 * vpart p q q' ((i, j, k), (a, b, c)))%Z); [|lia].
  unfold vpart. cbn [fst snd segt]. destruct (act_of p q (i, j, k) (a, b, c)) as [|d|x y d|x d] eqn:E; cbn [edir esig]; try lia.
  destruct TM as [z [u [v [w [RT T2]]]]]. rewrite T2. assert (X : sge pts p q' (x, y) = sgz (s_orient p q' u v)); [|rewrite X; lia].
  unfold sge, efun. cbn [fst snd]. destruct RT as [RT|[RT|RT]]; cbn [rot] in RT; injection RT as -> -> -> -> -> ->; rewrite ?N1, ?N2, ?N3; reflexivity.
Qed.
Lemma soup_edge : forall (pts : list (vec3 R)) p q', forall ixs l, s_soup pts ixs = Some l -> (forall t, In t l -> orient_nz p q' t) -> forall i j, In (i, j) (s_edges ixs) ->
  exists a b, s_nth pts (N.to_nat i) = Some a /\ s_nth pts (N.to_nat j) = Some b /\ s_orient p q' a b <> 0.
Proof.
  intros pts p q'. induction ixs as [|[[x y] z] ixs IH]; intros l S H i j I; [destruct I|].
  destruct (soup_cons _ _ _ _ _ _ S) as [a [b [c [r [N1 [N2 [N3 [S' ->]]]]]]]]. destruct (H _ (or_introl eq_refl)) as [O1 [O2 O3]].
  destruct I as [I|[I|[I|I]]]; try (injection I as <- <-; eauto). apply (IH r S'); auto. intros; apply H; right; auto.
Qed.
Lemma sge_anti : forall (pts : list (vec3 R)) p q' ixs l, s_soup pts ixs = Some l -> (forall t, In t l -> orient_nz p q' t) -> forall i j, In (i, j) (s_edges ixs) -> sge pts p q' (j, i) = (- sge pts p q' (i, j))%Z.
Proof.
  intros pts p q' ixs l S H i j I. destruct (soup_edge pts p q' ixs l S H i j I) as [a [b [A [B O]]]]. unfold sge, efun. cbn [fst snd]. rewrite A, B, orient_anti. apply sgz_anti. auto.
Qed.
Lemma nodup_keys : forall K : list (N * N), exists K', NoDup K' /\ incl K K'.
Proof. intros K. assert (D : forall x y : N * N, {x = y} + {x <> y}) by (decide equality; apply N.eq_dec). exists (nodup D K). split; [apply NoDup_nodup|]. intros x X. apply nodup_In. auto. Qed.
Lemma nodup_N : forall K : list N, exists K', NoDup K' /\ incl K K'.
Proof. intros K. exists (nodup N.eq_dec K). split; [apply NoDup_nodup|]. intros x X. apply nodup_In. auto. Qed.
(** the count in terms of the actions *)
Lemma count_edges : forall (pts : list (vec3 R)) p q ixs l W, s_soup pts ixs = Some l -> s_closed_surface ixs -> (forall ix, In ix ixs -> small_ix ix) -> (forall t, In t l -> hgt t p <> 0) ->
  NoDup W -> incl (vert_keys (acts_of p q ixs l)) W ->
  (2 * h_count (run_acts (acts_of p q ixs l) h0))%Z = (2 * gens (acts_of p q ixs l) + s_zsum (map edir (acts_of p q ixs l)) + 2 * s_zsum (map (fun v => foldm 0 (vert_acts v (acts_of p q ixs l))) W))%Z /\
  (forall q', (forall t, In t l -> orient_nz p q' t) -> s_zsum (map (esig (sge pts p q')) (acts_of p q ixs l)) = 0%Z).
Proof.
  intros pts p q ixs l W S CL SM NZ NW IW. destruct (nodup_keys (edge_keys (acts_of p q ixs l))) as [K [NK IK]].
  destruct (edges_total pts p q ixs l K S CL SM (fun a b c I => NZ (a, b, c) I) NK IK) as [E1 E2]. split.
  - rewrite (run_count K W _ h0 NK NW IK IW). cbn [h_count h0].
    rewrite (zsum_ext _ _ (fun k => foldm 0 (map snd (edge_acts k (acts_of p q ixs l)))) K) by (intros k _; rewrite run_edge; cbn [h_edge h0]; lia).
    rewrite (zsum_ext _ _ (fun v => foldm 0 (vert_acts v (acts_of p q ixs l))) W) by (intros v _; rewrite run_vert; cbn [h_vert h0]; lia).
    unfold edir at 1. lia.
  - intros q' O. apply (E2 (sge pts p q')). intros i j I. eapply sge_anti; eauto.
Qed.
(** corners *)
Definition vert_fact (p q : vec3 R) (i : N) (d : Z) (x : (N * N * N) * triple) : Prop :=
  exists j k a b c, rotated x ((i, j, k), (a, b, c)) /\ s_orient p q a b = 0 /\ s_orient p q c a = 0 /\ s_height a b c p * s_height a b c q < 0 /\
    ((d = 1%Z /\ 0 < s_orient p q b c) \/ (d = (-1)%Z /\ s_orient p q b c < 0)).
Lemma act_vert_inv : forall p q ix t i d, act_of p q ix t = AVert i d -> vert_fact p q i d (ix, t).
Proof.
  intros p q [[i1 i2] i3] [[a b] c] i d. unfold act_of. destruct (Rlt_dec _ 0) as [H|]; [|discriminate].
  destruct (dir3_cases (s_orient p q a b) (s_orient p q b c) (s_orient p q c a)) as [[E S]|[[E S]|[E S]]]; rewrite E; cbn [Z.eqb]; try discriminate;
  (destruct (is0 (s_orient p q a b)) eqn:Z1, (is0 (s_orient p q b c)) eqn:Z2, (is0 (s_orient p q c a)) eqn:Z3; try discriminate; intros X; injection X as <- <-);
  repeat match goal with H : is0 _ = true |- _ => apply is0_true in H | H : is0 _ = false |- _ => apply is0_false in H end; unfold vert_fact.
  - exists i3, i1, b, c, a. split; [right; left; auto|]. rewrite <- !(height_rot a b c). repeat split; auto. left. split; auto; lra.
  - exists i2, i3, a, b, c. split; [left; auto|]. repeat split; auto. left. split; auto; lra.
  - exists i1, i2, c, a, b. split; [right; right; auto|]. rewrite !(height_rot c a b). repeat split; auto. left. split; auto; lra.
  - exists i3, i1, b, c, a. split; [right; left; auto|]. rewrite <- !(height_rot a b c). repeat split; auto. right. split; auto; lra.
  - exists i2, i3, a, b, c. split; [left; auto|]. repeat split; auto. right. split; auto; lra.
  - exists i1, i2, c, a, b. split; [right; right; auto|]. rewrite !(height_rot c a b). repeat split; auto. right. split; auto; lra.
Qed.
Lemma vert_on : forall p q a b c, s_orient p q a b = 0 -> s_orient p q c a = 0 -> s_height a b c p * s_height a b c q < 0 -> exists tau, 0 < tau < 1 /\ s_between p q tau = a.
Proof.
  intros p q a b c S1 S3 H. destruct (cramer p q a b c) as [X [Y Z]]. pose proof (orient_sum p q a b c) as SUM. rewrite S1, S3 in *.
  set (s2 := s_orient p q b c) in *. set (hp := s_height a b c p) in *. set (hq := s_height a b c q) in *.
  set (D := hq - hp) in *. assert (ND : D <> 0) by (unfold D; intros E; assert (hq = hp) by lra; nra). assert (S2 : s2 = D) by lra. rewrite S2 in X, Y, Z.
  exists (- hp / D). split.
  - assert (K : (- hp / D) * (1 - - hp / D) = - (hp * hq) / (D * D)) by (unfold D in *; field; auto). assert (0 < D * D) by nra.
    assert (K2 : 0 < (- hp / D) * (1 - - hp / D)) by (rewrite K; apply Rdiv_lt_0_compat; lra). set (y := - hp / D) in *. nra.
  - assert (K : forall pa qa aa ba ca, D * aa + 0 * ba + 0 * ca = D * pa - hp * (qa - pa) -> pa + - hp / D * (qa - pa) = aa).
    { intros pa qa aa ba ca E. apply (Rmult_eq_reg_l D); auto. transitivity (D * pa - hp * (qa - pa)); [field; auto|]. rewrite <- E. ring. }
    rewrite (V3_eta a). unfold s_between. f_equal; eapply K; eauto.
Qed.
Lemma tame_facts : forall p q t, s_tame p q t -> hgt t p <> 0 /\ hgt t q <> 0.
Proof. intros p q [[a b] c] [_ [H _]]. unfold hgt. pose proof e16_pos. split; intros Z; rewrite Z, ?Rmult_0_l, ?Rmult_0_r, Rabs_R0 in H; lra. Qed.
(** edges only: the count is that of the moved segment *)
Lemma edges_count : forall (pts : list (vec3 R)) p q ts l, p <> q -> s_soup pts (map idx ts) = Some l -> s_closed_surface (map idx ts) -> (forall ix, In ix (map idx ts) -> small_ix ix) ->
  (forall t, In t l -> s_tame p q t) -> (forall i d, ~ In (AVert i d) (acts_of p q (map idx ts) l)) ->
  forall q', (forall t, In t l -> kept p q q' t /\ nz1 p q' t) -> contains_loop pts p q ts h0 = Ret (Z.eqb (s_zsum (map (segt p q') l)) 1).
Proof.
  intros pts p q ts l PQ S CL SM TA NV q' KN. rewrite (loop_tame pts p q PQ ts l h0 S TA). f_equal. f_equal.
  assert (VK : vert_keys (acts_of p q (map idx ts) l) = []).
  { destruct (vert_keys (acts_of p q (map idx ts) l)) as [|v r] eqn:E; auto. exfalso. assert (I : In v (vert_keys (acts_of p q (map idx ts) l))) by (rewrite E; left; auto).
    unfold vert_keys in I. apply in_flat_map in I. destruct I as [[|d|x y d|x d] [I J]]; try (destruct J; fail). eapply NV; eauto. }
  destruct (count_edges pts p q (map idx ts) l [] S CL SM) as [C E]; [intros t I; apply (tame_facts p q); auto|constructor|rewrite VK; intros x []|].
  assert (M := moved_total pts p q q' PQ (map idx ts) l S). rewrite (E q') in M by (intros [[x y] z] I; destruct (KN _ I) as [_ [O _]]; exact O).
  cbn [map s_zsum fold_right] in C.
  assert (VP : s_zsum (map (vpart p q q') (combine (map idx ts) l)) = 0%Z).
  { apply zsum_0. intros [ix t] I. unfold vpart. cbn [fst snd]. destruct (act_of p q ix t) as [|d|x y d|x d] eqn:EA; auto. exfalso. apply (NV x d). unfold acts_of. apply in_map_iff. exists (ix, t). auto. }
  rewrite VP in M. assert (X : (2 * s_zsum (map (segt p q') l))%Z = (2 * h_count (run_acts (acts_of p q (map idx ts) l) h0))%Z); [|lia].
  rewrite M; [lia|]. intros t I. destruct (tame_facts p q t (TA t I)). destruct (KN t I). auto.
Qed.
(** a segment off the corners has no corner actions *)
Lemma off_corners_novert : forall (pts : list (vec3 R)) p q ixs l, s_soup pts ixs = Some l -> s_off_corners p q pts -> forall i d, ~ In (AVert i d) (acts_of p q ixs l).
Proof.
  intros pts p q ixs l S OC i d I. destruct (act_in _ _ _ _ _ _ S I) as [i1 [i2 [i3 [v1 [v2 [v3 [I1 [I2 [N1 [N2 [N3 EA]]]]]]]]]]]. symmetry in EA.
  destruct (act_vert_inv _ _ _ _ _ _ EA) as [j [k [a [b [c [RT [S1 [S3 [H _]]]]]]]]]. destruct (vert_on p q a b c S1 S3 H) as [tau [T E]].
  apply (OC a tau); [|lra|auto]. assert (IN : forall n v, s_nth pts n = Some v -> In v pts) by (intros n v E'; rewrite s_nth_nth_error in E'; eapply nth_error_In; eauto).
  destruct RT as [RT|[RT|RT]]; cbn [rot] in RT; injection RT as -> -> -> -> -> ->; eauto.
Qed.
