(** Containment when the segment passes exactly through edges and corners: the two triangles at an edge *)
From Coq Require Import ZArith NArith List Bool Lia Reals Lra Psatz Permutation.
From Verif Require Import Num MathTypes Outcome Mesh Box Spec P_Tac P_Math P_Mesh P_MeshGeo ShapeQuery SpecQuery SpecEdge P_Query P_Query2 P_Query3 P_Query5 P_Edge P_Edge2.
Import ListNotations.
Local Open Scope R_scope.

(** the segment pq passes through the inside of the edge ab *)
Definition hitp (p q a b : vec3 R) : Prop := exists tau u, 0 < tau < 1 /\ 0 < u < 1 /\ s_between p q tau = s_between a b u.
Lemma hitp_swap : forall p q a b, hitp p q a b -> hitp p q b a.
Proof. intros p q a b [tau [u [T [U E]]]]. exists tau, (1 - u). split; auto. split; [lra|]. rewrite E. apply between_swap. Qed.
Lemma dir3_rot : forall a b c, dir3 b c a = dir3 a b c.
Proof. intros. unfold dir3. destruct (nonneg a), (nonneg b), (nonneg c), (nonpos a), (nonpos b), (nonpos c); reflexivity. Qed.
Lemma act_rot : forall p q i j k a b c, act_of p q (j, k, i) (b, c, a) = act_of p q (i, j, k) (a, b, c).
Proof.
  intros. unfold act_of. rewrite <- !(height_rot a b c). rewrite dir3_rot. destruct (Rlt_dec _ 0); auto. destruct (Z.eqb _ 0); auto.
  destruct (is0 (s_orient p q a b)), (is0 (s_orient p q b c)), (is0 (s_orient p q c a)); reflexivity.
Qed.
Lemma is0_true : forall x, is0 x = true -> x = 0. Proof. intros x. unfold is0. destruct Req_EM_T; auto; discriminate. Qed.
Lemma is0_false : forall x, is0 x = false -> x <> 0. Proof. intros x. unfold is0. destruct Req_EM_T; auto; discriminate. Qed.
Lemma dir3_cases : forall a b c, (dir3 a b c = 1%Z /\ 0 <= a /\ 0 <= b /\ 0 <= c) \/ (dir3 a b c = (-1)%Z /\ a <= 0 /\ b <= 0 /\ c <= 0) \/
  (dir3 a b c = 0%Z /\ ~ (0 <= a /\ 0 <= b /\ 0 <= c) /\ ~ (a <= 0 /\ b <= 0 /\ c <= 0)).
Proof.
  intros. unfold dir3, nonneg, nonpos. destruct (Rle_dec 0 a), (Rle_dec 0 b), (Rle_dec 0 c); cbn [andb]; auto; right;
  destruct (Rle_dec a 0), (Rle_dec b 0), (Rle_dec c 0); cbn [andb]; auto; right; (split; [auto|split; lra]).
Qed.
Definition rot (x : (N * N * N) * triple) : (N * N * N) * triple := let '((i, j, k), (a, b, c)) := x in ((j, k, i), (b, c, a)).
Definition rotated (x y : (N * N * N) * triple) : Prop := y = x \/ y = rot x \/ y = rot (rot x).
(** what an edge action says *)
Definition edge_fact (p q : vec3 R) (i j : N) (d : Z) (x : (N * N * N) * triple) : Prop :=
  exists k a b c, rotated x ((i, j, k), (a, b, c)) /\ s_orient p q a b = 0 /\ s_orient p q b c <> 0 /\ s_orient p q c a <> 0 /\ s_height a b c p * s_height a b c q < 0 /\
    ((d = 1%Z /\ 0 < s_orient p q b c /\ 0 < s_orient p q c a) \/ (d = (-1)%Z /\ s_orient p q b c < 0 /\ s_orient p q c a < 0)).
Lemma act_edge_inv : forall p q ix t i j d, act_of p q ix t = AEdge i j d -> edge_fact p q i j d (ix, t).
Proof.
  intros p q [[i1 i2] i3] [[a b] c] i j d. unfold act_of. destruct (Rlt_dec _ 0) as [H|]; [|discriminate].
  destruct (dir3_cases (s_orient p q a b) (s_orient p q b c) (s_orient p q c a)) as [[E S]|[[E S]|[E S]]]; rewrite E; cbn [Z.eqb]; try discriminate;
  (destruct (is0 (s_orient p q a b)) eqn:Z1, (is0 (s_orient p q b c)) eqn:Z2, (is0 (s_orient p q c a)) eqn:Z3; try discriminate; intros X; injection X as <- <- <-);
  repeat match goal with H : is0 _ = true |- _ => apply is0_true in H | H : is0 _ = false |- _ => apply is0_false in H end; unfold edge_fact.
  - exists i3, a, b, c. split; [left; auto|]. repeat split; auto. left. repeat split; auto; lra.
  - exists i1, b, c, a. split; [right; left; auto|]. rewrite <- !(height_rot a b c). repeat split; auto. left. repeat split; auto; lra.
  - exists i2, c, a, b. split; [right; right; auto|]. rewrite !(height_rot c a b). repeat split; auto. left. repeat split; auto; lra.
  - exists i3, a, b, c. split; [left; auto|]. repeat split; auto. right. repeat split; auto; lra.
  - exists i1, b, c, a. split; [right; left; auto|]. rewrite <- !(height_rot a b c). repeat split; auto. right. repeat split; auto; lra.
  - exists i2, c, a, b. split; [right; right; auto|]. rewrite !(height_rot c a b). repeat split; auto. right. repeat split; auto; lra.
Qed.
Lemma edge_hitp : forall p q a b c, s_orient p q a b = 0 -> 0 < s_orient p q b c * s_orient p q c a -> s_height a b c p * s_height a b c q < 0 -> hitp p q a b.
Proof.
  intros p q a b c S1 S23 H. destruct (cramer p q a b c) as [X [Y Z]]. pose proof (orient_sum p q a b c) as SUM. rewrite S1 in *.
  set (s2 := s_orient p q b c) in *. set (s3 := s_orient p q c a) in *. set (hp := s_height a b c p) in *. set (hq := s_height a b c q) in *.
  set (D := hq - hp) in *. assert (ND : D <> 0) by (unfold D; intros E; assert (hq = hp) by lra; nra).
  exists (- hp / D), (s3 / D).
  assert (T : forall x, 0 < x * (D - x) -> 0 < x / D < 1).
  { intros x P. assert (K : (x / D) * (1 - x / D) = x * (D - x) / (D * D)) by (field; auto). assert (0 < D * D) by nra.
    assert (K2 : 0 < (x / D) * (1 - x / D)) by (rewrite K; apply Rdiv_lt_0_compat; auto). set (y := x / D) in *. nra. }
  split; [apply T; replace (D - - hp) with hq by (unfold D; ring); nra|]. split; [apply T; replace (D - s3) with s2 by lra; nra|].
  assert (S2 : s2 = D - s3) by lra. rewrite S2 in X, Y, Z.
  assert (K : forall pa qa aa ba ca, (D - s3) * aa + s3 * ba + 0 * ca = D * pa - hp * (qa - pa) -> pa + - hp / D * (qa - pa) = aa + s3 / D * (ba - aa)).
  { intros pa qa aa ba ca E. apply (Rmult_eq_reg_l D); auto. transitivity (D * pa - hp * (qa - pa)); [field; auto|]. rewrite <- E. field; auto. }
  unfold s_between. f_equal; eapply K; eauto.
Qed.
Lemma edge_conv : forall p q i j k a b c, hitp p q a b -> s_height a b c p <> 0 -> exists d, (d = 1%Z \/ d = (-1)%Z) /\ act_of p q (i, j, k) (a, b, c) = AEdge i j d.
Proof.
  intros p q i j k a b c [tau [u [T [U E]]]] NZ.
  destruct (bary p q a b c (1 - u) u 0 tau) as [S2 [S3 [S1 H]]]; [ring|rewrite E; unfold s_between; f_equal; ring|].
  set (D := s_height a b c q - s_height a b c p) in *. assert (ND : D <> 0) by (intros Z; rewrite Z in H; lra).
  assert (HQ : s_height a b c q = D + s_height a b c p) by (unfold D; ring). rewrite Rmult_0_l in S1.
  unfold act_of. rewrite S1, S2, S3, HQ. replace (s_height a b c p) with (- (tau * D)) by lra. destruct (Rlt_dec _ 0) as [L|L].
  2: { exfalso. apply L. assert (0 < D * D) by nra. assert (0 < tau * (1 - tau)) by nra. replace (- (tau * D) * (D + - (tau * D))) with (- (tau * (1 - tau) * (D * D))) by ring. nra. }
  rewrite (is0_t 0), !is0_f by nra.
  destruct (Rlt_le_dec 0 D) as [P|P].
  - exists 1%Z. split; auto. unfold dir3. rewrite !nonneg_t by nra. reflexivity.
  - exists (-1)%Z. split; auto. unfold dir3. rewrite (nonneg_f (_ * D)) by nra. rewrite andb_false_r. cbn [andb]. rewrite !nonpos_t by nra. reflexivity.
Qed.
Definition haskey (k : N * N) (e : N * N) : bool := eqk (ekey (fst e) (snd e)) k.
Definition small_ix (ix : N * N * N) : Prop := let '(i, j, k) := ix in (i < 4294967296)%N /\ (j < 4294967296)%N /\ (k < 4294967296)%N.
Definition proper_ix (ix : N * N * N) : Prop := let '(i, j, k) := ix in i <> j /\ j <> k /\ k <> i.
Lemma edge_acts_cons : forall k a acts, edge_acts k (a :: acts) = (match a with AEdge i j d => if eqk (ekey i j) k then [(i, j, d)] else [] | _ => [] end) ++ edge_acts k acts.
Proof. reflexivity. Qed.
Lemma key_list : forall pts p q i j a b, s_nth pts (N.to_nat i) = Some a -> s_nth pts (N.to_nat j) = Some b -> (i < 4294967296)%N -> (j < 4294967296)%N -> i <> j -> hitp p q a b ->
  forall ixs l, s_soup pts ixs = Some l -> (forall ix, In ix ixs -> small_ix ix /\ proper_ix ix) -> (forall a b c, In (a, b, c) l -> s_height a b c p <> 0) ->
  map fst (edge_acts (ekey i j) (acts_of p q ixs l)) = filter (haskey (ekey i j)) (s_edges ixs).
Proof.
  intros pts p q i j a b A B SI SJ NE H. induction ixs as [|[[i1 i2] i3] ixs IH]; intros l S PR NZ; [injection S as <-; reflexivity|].
  destruct (soup_cons _ _ _ _ _ _ S) as [v1 [v2 [v3 [r [N1 [N2 [N3 [S' ->]]]]]]]].
  change (acts_of p q ((i1, i2, i3) :: ixs) ((v1, v2, v3) :: r)) with (act_of p q (i1, i2, i3) (v1, v2, v3) :: acts_of p q ixs r).
  rewrite edge_acts_cons, map_app, (IH r S'); [|intros; apply PR; right; auto|intros; apply NZ; right; auto].
  change (s_edges ((i1, i2, i3) :: ixs)) with ([(i1, i2); (i2, i3); (i3, i1)] ++ s_edges ixs). rewrite filter_app. f_equal.
  destruct (PR _ (or_introl eq_refl)) as [[M1 [M2 M3]] [D1 [D2 D3]]]. specialize (NZ v1 v2 v3 (or_introl eq_refl)).
  (* an edge with this key is hit *)
  assert (HK : forall x y vx vy, (x < 4294967296)%N -> (y < 4294967296)%N -> x <> y -> s_nth pts (N.to_nat x) = Some vx -> s_nth pts (N.to_nat y) = Some vy -> haskey (ekey i j) (x, y) = true -> hitp p q vx vy).
  { intros x y vx vy X Y XY NX NY K. apply eqk_spec in K. cbn [fst snd] in K. destruct (ekey_inj _ _ _ _ X Y SI SJ XY NE K) as [[-> ->]|[-> ->]].
    - assert (vx = a) by congruence. assert (vy = b) by congruence. subst. auto.
    - assert (vx = b) by congruence. assert (vy = a) by congruence. subst. apply hitp_swap. auto. }
  pose proof (HK _ _ _ _ M1 M2 D1 N1 N2) as H1. pose proof (HK _ _ _ _ M2 M3 D2 N2 N3) as H2. pose proof (HK _ _ _ _ M3 M1 D3 N3 N1) as H3. clear HK.
  assert (C1 : haskey (ekey i j) (i1, i2) = true -> exists d, act_of p q (i1, i2, i3) (v1, v2, v3) = AEdge i1 i2 d).
  { intros K. destruct (edge_conv p q i1 i2 i3 v1 v2 v3 (H1 K) NZ) as [d [_ E]]. eauto. }
  assert (C2 : haskey (ekey i j) (i2, i3) = true -> exists d, act_of p q (i1, i2, i3) (v1, v2, v3) = AEdge i2 i3 d).
  { intros K. rewrite <- act_rot. destruct (edge_conv p q i2 i3 i1 v2 v3 v1 (H2 K)) as [d [_ E]]; [rewrite <- height_rot; auto|eauto]. }
  assert (C3 : haskey (ekey i j) (i3, i1) = true -> exists d, act_of p q (i1, i2, i3) (v1, v2, v3) = AEdge i3 i1 d).
  { intros K. rewrite <- act_rot, <- act_rot. destruct (edge_conv p q i3 i1 i2 v3 v1 v2 (H3 K)) as [d [_ E]]; [rewrite height_rot; auto|eauto]. }
  cbn [filter].
  destruct (haskey (ekey i j) (i1, i2)) eqn:K1.
  { destruct (C1 eq_refl) as [d1 E1]. destruct (haskey (ekey i j) (i2, i3)) eqn:K2; [destruct (C2 eq_refl); congruence|]. destruct (haskey (ekey i j) (i3, i1)) eqn:K3; [destruct (C3 eq_refl); congruence|].
    rewrite E1. unfold haskey in K1. cbn [fst snd] in K1. rewrite K1. reflexivity. }
  destruct (haskey (ekey i j) (i2, i3)) eqn:K2.
  { destruct (C2 eq_refl) as [d1 E1]. destruct (haskey (ekey i j) (i3, i1)) eqn:K3; [destruct (C3 eq_refl); congruence|].
    rewrite E1. unfold haskey in K2. cbn [fst snd] in K2. rewrite K2. reflexivity. }
  destruct (haskey (ekey i j) (i3, i1)) eqn:K3.
  { destruct (C3 eq_refl) as [d1 E1]. rewrite E1. unfold haskey in K3. cbn [fst snd] in K3. rewrite K3. reflexivity. }
  destruct (act_of p q (i1, i2, i3) (v1, v2, v3)) as [|d|x y d|x d] eqn:E; try reflexivity.
  destruct (act_edge_inv _ _ _ _ _ _ _ E) as [z [w1 [w2 [w3 [RT _]]]]].
  assert (X : eqk (ekey x y) (ekey i j) = false); [|rewrite X; reflexivity].
  unfold haskey in *. cbn [fst snd] in *. destruct RT as [RT|[RT|RT]]; cbn [rot] in RT; injection RT as -> -> _ _ _ _; auto.
Qed.
Lemma closed_ix : forall ixs, s_closed_surface ixs -> forall ix, In ix ixs -> proper_ix ix.
Proof.
  intros ixs [ND CL] [[i j] k] I. assert (X : forall e, In e [(i, j); (j, k); (k, i)] -> In e (s_edges ixs)).
  { clear - I. induction ixs as [|[[a b] c] ixs IH]; [destruct I|]. intros e E. change (s_edges ((a, b, c) :: ixs)) with ([(a, b); (b, c); (c, a)] ++ s_edges ixs). apply in_or_app.
    destruct I as [I|I]; [injection I as -> -> ->; left; auto|right; apply IH; auto]. }
  split; [|split]; eapply CL; apply X; cbn; auto.
Qed.
Lemma edges_small : forall ixs, (forall ix, In ix ixs -> small_ix ix) -> forall i j, In (i, j) (s_edges ixs) -> (i < 4294967296)%N /\ (j < 4294967296)%N.
Proof.
  induction ixs as [|[[a b] c] ixs IH]; intros H i j I; [destruct I|]. destruct (H _ (or_introl eq_refl)) as [A [B C]].
  destruct I as [I|[I|[I|I]]]; try (injection I as <- <-; auto). apply IH; auto. intros; apply H; right; auto.
Qed.
Lemma key_two : forall ixs i j, s_closed_surface ixs -> (forall ix, In ix ixs -> small_ix ix) -> In (i, j) (s_edges ixs) -> Permutation (filter (haskey (ekey i j)) (s_edges ixs)) [(i, j); (j, i)].
Proof.
  intros ixs i j [ND CL] SM I. destruct (CL _ _ I) as [NE I']. destruct (edges_small _ SM _ _ I) as [SI SJ].
  apply NoDup_Permutation.
  - apply NoDup_filter. auto.
  - constructor; [intros [X|[]]; congruence|]. constructor; [intros []|constructor].
  - intros [x y]. rewrite filter_In. unfold haskey. cbn [fst snd]. rewrite eqk_spec. cbn [In]. split.
    + intros [X K]. destruct (edges_small _ SM _ _ X). destruct (CL _ _ X) as [NX _]. apply ekey_inj in K; auto. destruct K as [[-> ->]|[-> ->]]; auto.
    + intros [X|[X|[]]]; injection X as <- <-; [auto|]. split; auto. apply ekey_swap.
Qed.
Lemma act_in : forall p q (pts : list (vec3 R)) ixs l a, s_soup pts ixs = Some l -> In a (acts_of p q ixs l) -> exists i j k v1 v2 v3, In (i, j, k) ixs /\ In (v1, v2, v3) l /\
  s_nth pts (N.to_nat i) = Some v1 /\ s_nth pts (N.to_nat j) = Some v2 /\ s_nth pts (N.to_nat k) = Some v3 /\ a = act_of p q (i, j, k) (v1, v2, v3).
Proof.
  intros p q pts. induction ixs as [|[[i j] k] ixs IH]; intros l a S I; [injection S as <-; destruct I|].
  destruct (soup_cons _ _ _ _ _ _ S) as [v1 [v2 [v3 [r [N1 [N2 [N3 [S' ->]]]]]]]]. destruct I as [I|I].
  - exists i, j, k, v1, v2, v3. split; [left; reflexivity|]. split; [left; reflexivity|]. do 3 (split; [assumption|]). symmetry. exact I.
  - destruct (IH r a S' I) as [x [y [z [w1 [w2 [w3 [X [Y Z]]]]]]]]. exists x, y, z, w1, w2, w3. split; [right; auto|]. split; [right; auto|]. auto.
Qed.
Lemma edges_in : forall ixs i j k, In (i, j, k) ixs -> In (i, j) (s_edges ixs) /\ In (j, k) (s_edges ixs) /\ In (k, i) (s_edges ixs).
Proof.
  induction ixs as [|[[a b] c] ixs IH]; intros i j k I; [destruct I|]. destruct I as [I|I].
  - injection I as -> -> ->. cbn. repeat split; auto.
  - destruct (IH _ _ _ I) as [A [B C]]. cbn. repeat split; auto.
Qed.
(** the actions at one edge *)
Lemma key_pair : forall (pts : list (vec3 R)) p q ixs l k, s_soup pts ixs = Some l -> s_closed_surface ixs -> (forall ix, In ix ixs -> small_ix ix) -> (forall a b c, In (a, b, c) l -> s_height a b c p <> 0) ->
  edge_acts k (acts_of p q ixs l) = [] \/
  exists i j a b, s_nth pts (N.to_nat i) = Some a /\ s_nth pts (N.to_nat j) = Some b /\ In (i, j) (s_edges ixs) /\ hitp p q a b /\ Permutation (map fst (edge_acts k (acts_of p q ixs l))) [(i, j); (j, i)].
Proof.
  intros pts p q ixs l k S CL SM NZ. destruct (edge_acts k (acts_of p q ixs l)) as [|[[i j] d] r] eqn:E; [auto|]. right.
  assert (I : In (i, j, d) (edge_acts k (acts_of p q ixs l))) by (rewrite E; left; auto). unfold edge_acts in I. apply in_flat_map in I. destruct I as [a [IA IK]].
  destruct a as [|?|i' j' d'|?]; try (destruct IK; fail). destruct (eqk (ekey i' j') k) eqn:K; [|destruct IK]. apply eqk_spec in K. destruct IK as [IK|[]]. injection IK as -> -> ->.
  destruct (act_in _ _ _ _ _ _ S IA) as [i1 [i2 [i3 [v1 [v2 [v3 [I1 [I2 [N1 [N2 [N3 EA]]]]]]]]]]]. symmetry in EA. destruct (act_edge_inv _ _ _ _ _ _ _ EA) as [z [a [b [c [RT [S1 [S2 [S3 [H D]]]]]]]]].
  assert (HP : hitp p q a b) by (apply (edge_hitp p q a b c); auto; destruct D as [[_ [? ?]]|[_ [? ?]]]; nra).
  destruct (edges_in _ _ _ _ I1) as [X1 [X2 X3]].
  assert (Y : s_nth pts (N.to_nat i) = Some a /\ s_nth pts (N.to_nat j) = Some b /\ In (i, j) (s_edges ixs)).
  { destruct RT as [RT|[RT|RT]]; cbn [rot] in RT; injection RT as -> -> -> -> -> ->; auto. }
  destruct Y as [Y1 [Y2 Y3]]. exists i, j, a, b. do 4 (split; auto). rewrite <- E, <- K.
  destruct (edges_small _ SM _ _ Y3) as [SI SJ]. destruct CL as [ND CL]. destruct (CL _ _ Y3) as [NE _].
  rewrite (key_list pts p q i j a b Y1 Y2 SI SJ NE HP ixs l S); auto. { apply key_two; auto. split; auto. }
  intros ix IX. split; auto. eapply closed_ix; eauto. split; auto.
Qed.
Lemma edge_dirs_pm : forall p q ixs l k e d, In (e, d) (edge_acts k (acts_of p q ixs l)) -> d = 1%Z \/ d = (-1)%Z.
Proof.
  intros p q ixs l k [i j] d I. unfold edge_acts in I. apply in_flat_map in I. destruct I as [a [IA IK]].
  destruct a as [|?|i' j' d'|?]; try (destruct IK; fail). destruct (eqk (ekey i' j') k) eqn:K; [|destruct IK]. destruct IK as [IK|[]]. injection IK as -> -> ->.
  unfold acts_of in IA. apply in_map_iff in IA. destruct IA as [[ix t] [E _]]. apply act_edge_inv in E. destruct E as [? [? [? [? [_ [_ [_ [_ [_ [[-> _]|[-> _]]]]]]]]]]]; auto.
Qed.
(** twice the final entry is the sum of the directions, and what is antisymmetric adds up to nothing *)
Lemma edges_total : forall (pts : list (vec3 R)) p q ixs l K, s_soup pts ixs = Some l -> s_closed_surface ixs -> (forall ix, In ix ixs -> small_ix ix) -> (forall a b c, In (a, b, c) l -> s_height a b c p <> 0) ->
  NoDup K -> incl (edge_keys (acts_of p q ixs l)) K ->
  (2 * s_zsum (map (fun k => foldm 0 (map snd (edge_acts k (acts_of p q ixs l)))) K))%Z = s_zsum (map (fun a => match a with AEdge _ _ d => d | _ => 0%Z end) (acts_of p q ixs l)) /\
  (forall sg, (forall i j, In (i, j) (s_edges ixs) -> sg (j, i) = (- sg (i, j))%Z) -> s_zsum (map (fun a => match a with AEdge i j _ => sg (i, j) | _ => 0%Z end) (acts_of p q ixs l)) = 0%Z).
Proof.
  intros pts p q ixs l K S CL SM NZ NK IK. set (A := acts_of p q ixs l) in *.
  assert (DBL : forall (f : N * N -> Z) L, (2 * s_zsum (map f L))%Z = s_zsum (map (fun k => 2 * f k)%Z L)).
  { intros f. induction L as [|x L IHL]; [reflexivity|]. cbn [map s_zsum fold_right]. fold (s_zsum (map f L)). fold (s_zsum (map (fun k => 2 * f k)%Z L)). rewrite <- IHL. lia. }
  split.
  - pose proof (sum_keys (fun x => snd x) K A NK IK) as SK. cbn [snd] in SK. rewrite <- SK, DBL. apply zsum_ext. intros k _. unfold A in *.
    destruct (key_pair pts p q ixs l k S CL SM NZ) as [E|[i [j [a [b [_ [_ [_ [_ P]]]]]]]]]; [rewrite E; reflexivity|].
    pose proof (Permutation_length P) as LN. rewrite map_length in LN. cbn [length] in LN. pose proof (edge_dirs_pm p q ixs l k) as PM.
    destruct (edge_acts k (acts_of p q ixs l)) as [|[e1 d1] [|[e2 d2] [|? ?]]]; try discriminate. clear LN P. cbn [map snd s_zsum fold_right].
    destruct (PM e1 d1 (or_introl eq_refl)) as [-> | ->], (PM e2 d2 (or_intror (or_introl eq_refl))) as [-> | ->]; reflexivity.
  - intros sg AN. pose proof (sum_keys (fun x => sg (fst x)) K A NK IK) as SK. cbn [fst] in SK. rewrite <- SK. apply zsum_0. intros k _. unfold A in *.
    destruct (key_pair pts p q ixs l k S CL SM NZ) as [E|[i [j [a [b [_ [_ [IE [_ P]]]]]]]]]; [rewrite E; reflexivity|].
    rewrite <- map_map. rewrite (zsum_perm _ (map sg [(i, j); (j, i)])) by (apply Permutation_map; auto). cbn [map s_zsum fold_right]. rewrite (AN _ _ IE). lia.
Qed.
