(** Octrees over the reals: box and point queries, invariants over histories. *)
From Coq Require Import ZArith NArith List Bool Lia Reals Lra Psatz Arith.
From Verif Require Import Num MathTypes Outcome Mesh Box Composite Octree Spec SpecOctree NumOrd P_Tac P_Math P_Box P_BoxMesh P_Composite P_Octree P_OctreeRay.
Import ListNotations.
Local Open Scope R_scope.

(** ** More fuel changes nothing *)
Section Fuel.
  Context {T : Type} {NT : Num T}.
  Lemma add_fuel : forall f f' res (n : node T) p n', (f <= f')%nat -> node_add f res n p = Ret n' -> node_add f' res n p = Ret n'.
  Proof.
    induction f as [|f IH]; intros f' res n p n' L H; [discriminate|]. destruct f' as [|f']; [lia|]. cbn [node_add] in *.
    destruct n as [|s sp o ch]; [discriminate|]. destruct (nltb _ res); auto. revert H.
    match goal with |- context [node_add f res ?c ?q] => destruct (node_add f res c q) as [c'| | |] eqn:E; try discriminate; rewrite (IH f' res c q c'); auto; lia end.
  Qed.
  Lemma raytrace_fuel : forall f f' res (n : node T) o d t0 t1 n', (f <= f')%nat ->
    node_raytrace f res n o d t0 t1 = Ret n' -> node_raytrace f' res n o d t0 t1 = Ret n'.
  Proof.
    induction f as [|f IH]; intros f' res n o d t0 t1 n' L H; [discriminate|]. destruct f' as [|f']; [lia|]. cbn [node_raytrace] in *.
    destruct n as [|s sp oc ch]; [discriminate|]. destruct (nltb t1 t0); auto. destruct (outside _ s); auto.
    destruct (ch _ _ _) as [|s2 sp2 o2 ch2].
    - cbn [obind] in *. apply IH; [lia|auto].
    - match type of H with context [node_raytrace f res (Node s2 sp2 o2 ch2) ?q d t0 t1] => destruct (node_raytrace f res (Node s2 sp2 o2 ch2) q d t0 t1) as [c'| | |] eqn:E; try discriminate;
        rewrite (IH f' res (Node s2 sp2 o2 ch2) q d t0 t1 c'); auto; try lia end.
      cbn [obind] in *. apply IH; [lia|auto].
  Qed.
  Lemma octadd_fuel : forall f f' (o : octree T) p o', (f <= f')%nat -> oct_add f o p = Ret o' -> oct_add f' o p = Ret o'.
  Proof.
    intros f f' o p o' L H. unfold oct_add in *. destruct (node_add f _ _ _) as [n| | |] eqn:E; try discriminate.
    rewrite (add_fuel _ _ _ _ _ _ L E). auto.
  Qed.
  Lemma halve_fuel' : forall f f' (r req x : T), (f <= f')%nat -> halve f r req = Ret x -> halve f' r req = Ret x.
  Proof.
    induction f as [|f IH]; intros f' r req x L H; [discriminate|]. destruct f' as [|f']; [lia|]. cbn [halve] in *.
    destruct (nltb req r); auto. apply IH; auto. lia.
  Qed.
  Lemma step_fuel : forall f f' (o : octree T) op o', (f <= f')%nat -> oct_step f o op = Ret o' -> oct_step f' o op = Ret o'.
  Proof.
    intros f f' o op o' L. destruct op as [p| |req|r t0 t1| | |m|]; cbn [oct_step]; auto.
    - apply octadd_fuel; auto.
    - unfold oct_setRes. destruct (halve f (o_size o) req) as [x| | |] eqn:E; try discriminate. rewrite (halve_fuel' _ _ _ _ _ L E). auto.
    - unfold oct_raytrace. destruct (box_ray _ r t0 t1 _) as [h dist]. destruct (negb h); auto.
      destruct (node_raytrace f _ _ _ _ _ _) as [n| | |] eqn:E; try discriminate. rewrite (raytrace_fuel _ _ _ _ _ _ _ _ _ L E). cbn [obind].
      destruct (oct_add f _ _) as [o2| | |] eqn:E2; try discriminate. rewrite (octadd_fuel _ _ _ _ _ L E2). auto.
  Qed.
  Lemma run_fuel : forall f f' ops (o o' : octree T), (f <= f')%nat -> oct_run f o ops = Ret o' -> oct_run f' o ops = Ret o'.
  Proof.
    intros f f' ops o o' L. revert o. induction ops as [|op ops IH]; intros o; cbn [oct_run]; auto.
    destruct (oct_step f o op) as [o1| | |] eqn:E; try discriminate. rewrite (step_fuel _ _ _ _ _ L E). apply IH.
  Qed.
End Fuel.

(** ** Invariant *)
Definition off_of (S : R) : vec3 R := V3 (- S / 2) (- S / 2) (- S / 2).
Definition max_of (S : R) : vec3 R := V3 (S / 2) (S / 2) (S / 2).
Record oinv (S : R) (o : octree R) : Prop := {
  oi_size : o_size o = S; oi_off : o_off o = off_of S; oi_max : o_max o = max_of S;
  oi_sized : sized S (o_root o); oi_nn : nonnull (o_root o); oi_res : exists m, o_res o = s_side S m }.

Lemma copy_occ : forall n path, occ (node_copy n) path <-> occ n path.
Proof.
  induction n as [|s sp o ch IH]; intros path; [tauto|]. destruct path as [|[[x y] z] r]; cbn [node_copy occ]; [tauto|]. apply IH.
Qed.
Lemma copy_sized : forall n s, sized s n -> sized s (node_copy n).
Proof. induction n as [|s' sp o ch IH]; intros s H; cbn in *; auto. intuition. Qed.
Lemma copy_nn : forall n : node R, nonnull n -> nonnull (node_copy n).
Proof. destruct n; auto. Qed.
Lemma copy_cubes : forall (n : node R) off, node_cubes (node_copy n) off = node_cubes n off.
Proof.
  induction n as [|s sp o ch IH]; intros off; auto. cbn [node_copy node_cubes]. destruct o; auto.
  apply flat_map_ext. intros [[x y] z]. apply IH.
Qed.

Lemma add_sized : forall fuel res n p n' s, sized s n -> node_add fuel res n p = Ret n' -> sized s n' /\ nonnull n'.
Proof.
  induction fuel as [|fuel IH]; intros res n p n' s Z H; [discriminate|]. destruct n as [|s' sp o ch]; [discriminate|].
  cbn [node_add] in H. destruct Z as [-> [-> Z]]. destruct (nltb _ res). { injection H as <-. cbn. auto. }
  revert H. match goal with |- context [node_add fuel res ?c ?q] => set (c0 := c); set (q0 := q) end. intros H.
  destruct (node_add fuel res c0 q0) as [c'| | |] eqn:E; try discriminate. injection H as <-.
  assert (ZC : sized (s/2) c0). { unfold c0. destruct (ch _ _ _) eqn:E'; [apply sized_new|rewrite <- E'; apply Z]. }
  destruct (IH _ _ _ _ _ ZC E) as [A _]. split; [|exact I]. cbn. split; auto. split; auto. intros x y z. unfold set_ch. destruct (_ && _)%bool; auto.
Qed.
Lemma raytrace_sized : forall fuel res n o d t0 t1 n' s, sized s n -> node_raytrace fuel res n o d t0 t1 = Ret n' -> sized s n' /\ nonnull n'.
Proof.
  induction fuel as [|fuel IH]; intros res n o d t0 t1 n' s Z H; [discriminate|]. destruct n as [|s' sp oc ch]; [discriminate|].
  cbn [node_raytrace] in H. destruct (nltb t1 t0). { injection H as <-. split; [auto|exact I]. }
  destruct (outside _ s'). { injection H as <-. split; [auto|exact I]. } destruct Z as [-> [-> Z]].
  revert H. match goal with |- context [ch ?a ?b ?c] => set (bx := a); set (by_ := b); set (bz := c) end. intros H.
  destruct (ch bx by_ bz) as [|s2 sp2 o2 ch2] eqn:EC.
  - cbn [obind] in H. eapply IH; [|exact H]. cbn. auto.
  - match type of H with context [node_raytrace fuel res (Node s2 sp2 o2 ch2) ?q d t0 t1] => destruct (node_raytrace fuel res (Node s2 sp2 o2 ch2) q d t0 t1) as [c'| | |] eqn:E; try discriminate end.
    cbn [obind] in H. assert (ZC : sized (s/2) (Node s2 sp2 o2 ch2)) by (rewrite <- EC; apply Z).
    destruct (IH _ _ _ _ _ _ _ _ ZC E) as [A _]. eapply IH; [|exact H]. cbn. split; auto. split; auto.
    intros x y z. unfold set_ch. destruct (_ && _)%bool; auto.
Qed.

Lemma halve_side : forall fuel S req x, halve fuel S req = Ret x -> 0 < S ->
  exists m, x = s_side S m /\ x <= req /\ forall j, (j < m)%nat -> req < s_side S j.
Proof.
  induction fuel as [|f IH]; intros S req x H P; [discriminate|]. cbn [halve] in H. cbn [nltb NumR] in H.
  destruct (Rltb req S) eqn:E.
  - apply Rltb_true in E. destruct (IH _ _ _ H) as [m [A [B C]]]; [cbn; lra|].
    exists (Datatypes.S m). split; [rewrite A; symmetry; apply side_half'|]. split; auto. intros [|j] J.
    + rewrite side_0. auto.
    + rewrite side_half'. apply C. lia.
  - apply Rltb_false in E. injection H as <-. exists 0%nat. rewrite side_0. split; auto. split; auto. intros; lia.
Qed.
Lemma resolution_unique : forall S req r r', s_resolution S req r -> s_resolution S req r' -> r = r'.
Proof.
  intros S req r r' [[m ->] [A B]] [[m' ->] [A' B']]. apply Rle_antisym; auto.
Qed.

Lemma oct_new_inv : forall fuel S req o, 0 < S -> oct_new fuel S req = Ret o -> oinv S o /\ s_resolution S req (o_res o) /\ o_root o = node_new S.
Proof.
  intros fuel S req o P H. unfold oct_new, oct_setRes in H. cbn [o_size] in H. destruct (halve fuel S req) as [x| | |] eqn:E; try discriminate.
  injection H as <-. destruct (halve_side _ _ _ _ E P) as [m [A [B C]]]. cbn [o_res]. split; [|split].
  - constructor; cbn [o_size o_off o_max o_root o_res]; auto.
    + apply sized_new.
    + exact I.
    + eauto.
  - rewrite A. apply resolution_spec; auto. lra.
  - reflexivity.
Qed.
Lemma step_inv : forall fuel S o op o', 0 < S -> oinv S o -> oct_step fuel o op = Ret o' -> oinv S o'.
Proof.
  intros fuel S o op o' P [I1 I2 I3 I4 I5 I6] H. destruct op as [p| |req|r t0 t1| | |m|]; cbn [oct_step] in H.
  - unfold oct_add in H. destruct (node_add _ _ _ _) as [n| | |] eqn:E; try discriminate. injection H as <-.
    destruct (add_sized _ _ _ _ _ _ I4 E). constructor; cbn; auto.
  - injection H as <-. constructor; cbn [oct_clear o_size o_off o_max o_root o_res]; auto; [rewrite I1; apply sized_new|exact I].
  - unfold oct_setRes in H. rewrite I1 in H. destruct (halve _ _ _) as [x| | |] eqn:E; try discriminate. injection H as <-.
    destruct (halve_side _ _ _ _ E P) as [m [A _]]. constructor; cbn; eauto.
  - unfold oct_raytrace in H. destruct (box_ray _ r t0 t1 _) as [h dist]. destruct (negb h). { injection H as <-. constructor; auto. }
    destruct (node_raytrace _ _ _ _ _ _ _) as [n| | |] eqn:E; try discriminate. cbn [obind] in H. unfold oct_add in H. cbn [o_res o_root o_off] in H.
    destruct (node_add _ _ n _) as [n2| | |] eqn:E2; try discriminate. injection H as <-.
    destruct (raytrace_sized _ _ _ _ _ _ _ _ _ I4 E). destruct (add_sized _ _ _ _ _ S H E2). constructor; cbn; auto.
  - unfold oct_mesh in H. destruct (mesh_empty _).
    + destruct (filterOverlapping _); try discriminate. injection H as <-. constructor; cbn; auto.
    + injection H as <-. constructor; auto.
  - unfold oct_bbox, oct_mesh in H. destruct (s_bbv _).
    + destruct (shape_bbox _ _) as [b s]. injection H as <-. constructor; cbn; auto.
    + destruct (mesh_empty _).
      * destruct (filterOverlapping _) as [m'| | |]; try discriminate. cbn [obind] in H. destruct (shape_bbox _ _) as [b s]. injection H as <-. constructor; cbn; auto.
      * cbn [obind] in H. destruct (shape_bbox _ _) as [b s]. injection H as <-. constructor; cbn; auto.
  - injection H as <-. constructor; cbn; auto.
  - injection H as <-. constructor; cbn [oct_copy o_size o_off o_max o_root o_res]; auto using copy_sized, copy_nn.
Qed.
Lemma run_inv : forall fuel S ops o o', 0 < S -> oinv S o -> oct_run fuel o ops = Ret o' -> oinv S o'.
Proof.
  intros fuel S ops. induction ops as [|op ops IH]; intros o o' P I H; cbn [oct_run] in H; [injection H as <-; auto|].
  destruct (oct_step fuel o op) as [o1| | |] eqn:E; try discriminate. apply (IH o1 o' P); [apply (step_inv fuel S o op o1 P I E)|exact H].
Qed.
Lemma reach_inv : forall S o, 0 < S -> s_reach S o -> oinv S o.
Proof.
  intros S o P [fuel [req [ops [o0 [A B]]]]]. eapply run_inv; eauto. eapply oct_new_inv; eauto.
Qed.

(** ** paths and cells *)
Lemma zval_surj : forall k z, (0 <= z < 2 ^ Z.of_nat k)%Z -> exists l, length l = k /\ zval l = z.
Proof.
  induction k as [|k IH]; intros z H. { exists []. cbn in *. split; auto. lia. }
  rewrite Nat2Z.inj_succ, Z.pow_succ_r in H by lia. destruct (Z_lt_le_dec z (2 ^ Z.of_nat k)) as [L|L].
  - destruct (IH z) as [l [A B]]; [lia|]. exists (false :: l). cbn. split; [lia|auto].
  - destruct (IH (z - 2 ^ Z.of_nat k)%Z) as [l [A B]]; [lia|]. exists (true :: l). cbn. rewrite A, B. split; lia.
Qed.
Fixpoint zip3 (a b c : list bool) : list step :=
  match a, b, c with x :: a, y :: b, z :: c => (x, y, z) :: zip3 a b c | _, _, _ => [] end.
Lemma zip3_ok : forall a b c, length a = length b -> length a = length c ->
  length (zip3 a b c) = length a /\ ax px (zip3 a b c) = a /\ ax py (zip3 a b c) = b /\ ax pz (zip3 a b c) = c.
Proof.
  induction a as [|x a IH]; intros [|y b] [|z c] L1 L2; try discriminate; cbn; auto.
  cbn in L1, L2. destruct (IH b c) as [A [B [C D]]]; try lia. unfold ax in *. rewrite A, B, C, D. auto.
Qed.
Definition valid_cell (k : nat) (i j l : Z) : Prop :=
  (0 <= i < 2 ^ Z.of_nat k /\ 0 <= j < 2 ^ Z.of_nat k /\ 0 <= l < 2 ^ Z.of_nat k)%Z.
Lemma path_valid : forall path, valid_cell (length path) (zval (ax px path)) (zval (ax py path)) (zval (ax pz path)).
Proof.
  intros. pose proof (zval_range (ax px path)). pose proof (zval_range (ax py path)). pose proof (zval_range (ax pz path)).
  rewrite !ax_len in *. unfold valid_cell. auto.
Qed.
Lemma path_of : forall k i j l, valid_cell k i j l -> exists path, length path = k /\ zval (ax px path) = i /\ zval (ax py path) = j /\ zval (ax pz path) = l.
Proof.
  intros k i j l [I [J L]]. destruct (zval_surj _ _ I) as [a [A1 A2]], (zval_surj _ _ J) as [b [B1 B2]], (zval_surj _ _ L) as [c [C1 C2]].
  exists (zip3 a b c). destruct (zip3_ok a b c) as [E1 [E2 [E3 E4]]]; try congruence. rewrite E1, E2, E3, E4. auto.
Qed.
Lemma subcell_prefix : forall path k' i' j' l', (k' <= length path)%nat ->
  s_subcell (length path) (zval (ax px path)) (zval (ax py path)) (zval (ax pz path)) k' i' j' l' <->
  exists p q, path = p ++ q /\ length p = k' /\ zval (ax px p) = i' /\ zval (ax py p) = j' /\ zval (ax pz p) = l'.
Proof.
  intros path k' i' j' l' L.
  assert (E : forall f p q, path = p ++ q -> (zval (ax f path) / 2 ^ Z.of_nat (length path - length p) = zval (ax f p))%Z).
  { intros f p q ->. unfold ax. rewrite map_app, app_length. replace (length p + length q - length p)%nat with (length (map f q)) by (rewrite map_length; lia).
    apply zval_prefix. }
  split.
  - intros [_ [X [Y Z]]]. exists (firstn k' path), (skipn k' path). rewrite firstn_skipn. split; auto.
    assert (LF : length (firstn k' path) = k') by (rewrite firstn_length; lia). split; auto.
    assert (E' : forall f, (zval (ax f path) / 2 ^ Z.of_nat (length path - k') = zval (ax f (firstn k' path)))%Z).
    { intros f. rewrite <- LF at 1. apply E with (q := skipn k' path). symmetry. apply firstn_skipn. }
    unfold s_sub1 in *. rewrite E' in X, Y, Z. auto.
  - intros [p [q [-> [<- [<- [<- <-]]]]]]. split; auto. unfold s_sub1. rewrite !(E _ p q) by auto. auto.
Qed.

(** ** histories of add, clear and setResolution *)
Definition octs (S : R) (o : octree R) (A : cells) : Prop :=
  oinv S o /\ (forall path, occ (o_root o) path <-> A (length path) (zval (ax px path)) (zval (ax py path)) (zval (ax pz path))) /\
  (forall k i j l, A k i j l -> valid_cell k i j l).

Lemma cell_valid : forall S k p i j l, s_cell S k p i j l -> valid_cell k i j l.
Proof. intros S k p i j l [[A _] [[B _] [C _]]]. split; auto. Qed.
Lemma cell_uniq : forall S k p i j l i' j' l', 0 < S -> s_cell S k p i j l -> s_cell S k p i' j' l' -> i = i' /\ j = j' /\ l = l'.
Proof. intros S k p i j l i' j' l' P [A [B C]] [A' [B' C']]. repeat split; eapply cell1_uniq; eauto. Qed.

Lemma octs_step : forall fuel S o A op ops res' A', 0 < S -> octs S o A -> s_hist S (off_of S) (o_res o) A (op :: ops) res' A' ->
  forall o1, oct_step fuel o op = Ret o1 -> exists A1, octs S o1 A1 /\ s_hist S (off_of S) (o_res o1) A1 ops res' A'.
Proof.
  intros fuel S o A op ops res' A' P [I [O V]] H o1 E. pose proof (step_inv _ _ _ _ _ P I E) as I1.
  assert (SAME : o_res o1 = o_res o -> (forall path, occ (o_root o1) path <-> occ (o_root o) path) ->
            s_hist S (off_of S) (o_res o) A ops res' A' -> exists A1, octs S o1 A1 /\ s_hist S (off_of S) (o_res o1) A1 ops res' A').
  { intros ER EO HH. exists A. rewrite ER. split; auto. split; auto. split; auto. intros path. rewrite EO. apply O. }
  inversion H; subst; cbn [oct_step] in E.
  - (* add *) destruct I as [J1 J2 J3 J4 J5 [m J6]]. unfold oct_add in E. rewrite J2 in E.
    destruct (level_ex S (o_res o)) as [k K]; auto. { rewrite J6. apply side_pos; auto. }
    destruct (add_spec k (fuel + k + 1) S (o_res o) (o_root o) (vsub p (off_of S))) as [n' [N1 [N2 [N3 N4]]]]; auto; [lia|].
    destruct (node_add fuel _ _ _) as [n| | |] eqn:EN; try discriminate. assert (NN : n = n').
    { apply (add_fuel _ (fuel + k + 1)) in EN; [|lia]. congruence. }
    subst n'. injection E as <-. cbn [o_res o_root] in *. eexists. split; [|match goal with HH : s_hist _ _ _ _ ops _ _ |- _ => exact HH end]. split; [auto|]. split.
    + intros path. cbn [o_root]. rewrite N4, O. change (vsub p (off_of S)) with (s_diff p (off_of S)). apply or_iff_compat_l. split.
      * intros ->. rewrite dpath_len. split; auto. apply dpath_cell.
      * intros [L C]. pose proof (level_uniq _ _ _ _ L K) as EK. rewrite EK in C.
        destruct (cell_uniq S k _ _ _ _ _ _ _ P C (dpath_cell k S (s_diff p (off_of S)))) as [X [Y Z]].
        apply path_inj; auto. rewrite dpath_len. auto.
    + intros k0 i j l [C|[_ C]]; eauto using cell_valid.
  - (* clear *) injection E as <-. cbn [oct_clear o_res] in *. eexists. split; [|match goal with HH : s_hist _ _ _ _ ops _ _ |- _ => exact HH end]. split; auto. split; [|intros; contradiction].
    intros path. cbn [oct_clear o_root]. split; [|tauto]. apply occ_new.
  - (* resolution *) unfold oct_setRes in E. rewrite (oi_size _ _ I) in E. destruct (halve fuel S req) as [x| | |] eqn:EH; try discriminate. injection E as <-.
    destruct (halve_side _ _ _ _ EH P) as [m [E1 [E2 E3]]]. assert (x = r).
    { apply (resolution_unique S req); auto. rewrite E1. apply resolution_spec; auto. lra. }
    subst r. exists A. cbn [o_res]. split; auto. split; auto.
  - unfold oct_mesh in E. destruct (mesh_empty _).
    + destruct (filterOverlapping _); try discriminate. injection E as <-. apply SAME; auto. intros; tauto.
    + injection E as <-. apply SAME; auto. intros; tauto.
  - unfold oct_bbox, oct_mesh in E. destruct (s_bbv _).
    + destruct (shape_bbox _ _) as [b s]. injection E as <-. apply SAME; auto. intros; tauto.
    + destruct (mesh_empty _).
      * destruct (filterOverlapping _) as [m'| | |]; try discriminate. cbn [obind] in E. destruct (shape_bbox _ _) as [b s]. injection E as <-. apply SAME; auto. intros; tauto.
      * cbn [obind] in E. destruct (shape_bbox _ _) as [b s]. injection E as <-. apply SAME; auto. intros; tauto.
  - injection E as <-. apply SAME; auto. intros; tauto.
  - injection E as <-. apply SAME; auto. intros. apply copy_occ.
Qed.
Lemma octs_run : forall fuel S ops o A res' A' o', 0 < S -> octs S o A -> s_hist S (off_of S) (o_res o) A ops res' A' ->
  oct_run fuel o ops = Ret o' -> octs S o' A' /\ o_res o' = res'.
Proof.
  intros fuel S ops. induction ops as [|op ops IH]; intros o A res' A' o' P O H E; cbn [oct_run] in E.
  - injection E as <-. inversion H; subst. auto.
  - destruct (oct_step fuel o op) as [o1| | |] eqn:E1; try discriminate.
    destruct (octs_step _ _ _ _ _ _ _ _ P O H _ E1) as [A1 [O1 H1]]. eapply IH; eauto.
Qed.
Lemma octs_cubes : forall S o A b, octs S o A ->
  (In b (oct_cubes o []) <-> exists k i j l, s_uncovered A k i j l /\ b = box_make (s_cmin (off_of S) S k i j l) (s_cmax (off_of S) S k i j l)).
Proof.
  intros S o A b [I [O V]]. unfold oct_cubes. cbn [app]. rewrite (cubes_in _ S) by (apply I). rewrite (oi_off _ _ I). split.
  - intros [path [L ->]]. apply listed_occ in L. destruct L as [L1 L2]. eexists _, _, _, _. split; [|reflexivity]. split; [apply O; auto|].
    intros k' i' j' l' K SC HA. apply subcell_prefix in SC; [|lia]. destruct SC as [p [q [-> [<- [<- [<- <-]]]]]].
    apply (L2 p q); auto; [|apply O; auto]. intros ->. rewrite app_nil_r in K. lia.
  - intros [k [i [j [l [[HA U] ->]]]]]. destruct (path_of k i j l) as [path [P1 [P2 [P3 P4]]]]; auto.
    exists path. unfold pmin, pmax. rewrite P1, P2, P3, P4. split; auto. apply listed_occ. split.
    + apply O. rewrite P1, P2, P3, P4. auto.
    + intros p q E N HO. apply O in HO. assert (LT : (length p < k)%nat) by (rewrite <- P1, E, app_length; destruct q; [congruence|cbn; lia]).
      apply (U (length p) (zval (ax px p)) (zval (ax py p)) (zval (ax pz p))); auto.
      rewrite <- P1, <- P2, <- P3, <- P4. apply subcell_prefix; [rewrite P1; lia|]. exists p, q. auto.
Qed.
