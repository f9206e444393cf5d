(** Height maps: the whole surface mesh *)
From Coq Require Import ZArith NArith List Bool Lia Reals Lra.
From Verif Require Import Num MathTypes Outcome Mesh Box Spec P_Tac P_Math P_Mesh P_MeshFilter P_MeshGeo P_Box HeightMap SpecHeight P_Height P_HeightMesh.
Import ListNotations.
Local Open Scope R_scope.

(** *** side faces of any grid: some rectangles, at most one per step, on grid lines and at grid heights *)
Lemma side_line_any : forall n cell em (qf : nat -> nat -> R -> R -> quad R) (Ph : R -> Prop) (Pq : quad R -> Prop) m0,
  (forall s e h h2 m, em s e h h2 m = emitq m (qf s e h h2)) ->
  Ph 0 -> (forall k, (k <= n)%nat -> Ph (fst (cell k)) /\ Ph (snd (cell k))) ->
  (forall s e h h2, (s <= n)%nat -> (e <= n)%nat -> Ph h -> Ph h2 -> Pq (qf s e h h2)) ->
  exists Q, side_line n cell em m0 = fold_left emitq Q m0 /\ (length Q <= S n)%nat /\ Forall Pq Q.
Proof.
  intros n cell em qf Ph Pq m0 EM P0 PC PQ. unfold side_line.
  assert (G : forall l st, (forall k, In k l -> (k <= n)%nat) ->
    (let '(hl, h2l, start, m) := st in Ph hl /\ Ph h2l /\ match start with Some s => (s <= n)%nat | None => True end) ->
    exists Q, snd (fold_left (side_step cell em) l st) = fold_left emitq Q (snd st) /\ (length Q <= length l)%nat /\ Forall Pq Q).
  { induction l as [|k l IH]; intros st L I; cbn [fold_left length].
    - exists []. auto.
    - assert (K : (k <= n)%nat) by (apply L; left; auto). specialize (IH (side_step cell em st k)).
      destruct st as [[[hl h2l] start] m]. destruct I as [I1 [I2 I3]]. unfold side_step in *.
      destruct (PC k K) as [C1 C2]. destruct (cell k) as [h h2]. cbn [fst snd] in C1, C2.
      assert (L' : forall k, In k l -> (k <= n)%nat) by (intros; apply L; right; auto).
      assert (FR : match (if nltb eps10 (nabs (nsub h h2)) then Some k else None) with Some s => (s <= n)%nat | None => True end) by (destruct (nltb eps10 (nabs (nsub h h2))); [exact K|constructor]).
      destruct start as [s|].
      + destruct (nltb eps10 (nadd _ _)).
        * destruct (IH L' (conj C1 (conj C2 FR))) as [Q [A [B C]]]. cbn [snd] in *.
          exists (qf s k hl h2l :: Q). cbn [fold_left length]. rewrite A, EM. split; [auto|]. split; [lia|]. constructor; auto.
        * destruct (IH L' (conj C1 (conj C2 I3))) as [Q [A [B C]]]. exists Q. split; [auto|]. split; [lia|auto].
      + destruct (IH L' (conj C1 (conj C2 FR))) as [Q [A [B C]]]. exists Q. split; [auto|]. split; [lia|auto]. }
  destruct (G (seq 0 (S n)) (n0, n0, None, m0)) as [Q [A [B C]]].
  - intros k K. apply in_seq in K. lia.
  - auto.
  - rewrite seq_length in B. exists Q. auto.
Qed.
Lemma fold_lines_any : forall (f : mesh R -> nat -> mesh R) b (Pq : quad R -> Prop) l,
  (forall m i, In i l -> exists Q, f m i = fold_left emitq Q m /\ (length Q <= b)%nat /\ Forall Pq Q) ->
  forall m, exists Q, fold_left f l m = fold_left emitq Q m /\ (length Q <= length l * b)%nat /\ Forall Pq Q.
Proof.
  intros f b Pq. induction l as [|i l IH]; intros F m; cbn [fold_left length].
  - exists []. auto.
  - destruct (F m i (or_introl eq_refl)) as [Q1 [A1 [B1 C1]]]. destruct (IH (fun m j J => F m j (or_intror J)) (f m i)) as [Q2 [A2 [B2 C2]]]. exists (Q1 ++ Q2).
    rewrite fold_left_app, <- A1, A2, app_length. split; [auto|]. split; [cbn [Nat.mul]; lia|]. apply Forall_app. auto.
Qed.

Definition wall_x_quad (res : R) (i s e : nat) (h h2 : R) : quad R :=
  Quad KX (V3 (res * nidx i) (res * nidx s) h) (V3 (res * nidx i) (res * nidx e) h) (V3 (res * nidx i) (res * nidx s) h2) (V3 (res * nidx i) (res * nidx e) h2).
Definition wall_y_quad (res : R) (i s e : nat) (h h2 : R) : quad R :=
  Quad KY (V3 (res * nidx s) (res * nidx i) h) (V3 (res * nidx e) (res * nidx i) h) (V3 (res * nidx s) (res * nidx i) h2) (V3 (res * nidx e) (res * nidx i) h2).
(** points on the grid lines at heights of cells *)
Definition grid_pt (g : list (list R)) (res : R) (mx my : nat) (p : vec3 R) : Prop :=
  exists i j h, (i <= mx)%nat /\ (j <= my)%nat /\ (h = 0 \/ exists x y, (x < mx)%nat /\ (y < my)%nat /\ cell_at g x y = h) /\ p = V3 (res * INR i) (res * INR j) h.
Definition grid_quad g res mx my (q : quad R) : Prop := Forall (grid_pt g res mx my) (qpts q).
Lemma sides_x_any : forall (g : list (list R)) res mx my m, exists Q, sides_x g res mx my m = fold_left emitq Q m /\ (length Q <= S mx * S my)%nat /\
  Forall (grid_quad g res mx my) Q.
Proof.
  intros. unfold sides_x. match goal with |- context [fold_left ?F (seq 0 (S mx)) m] =>
    destruct (fold_lines_any F (S my) (grid_quad g res mx my) (seq 0 (S mx))) with (m := m) as [Q [A [B C]]] end.
  - intros m1 i I. apply in_seq in I.
    apply (side_line_any my _ _ (wall_x_quad res i) (fun h => h = 0 \/ exists x y, (x < mx)%nat /\ (y < my)%nat /\ cell_at g x y = h)).
    + reflexivity.
    + auto.
    + intros k K. unfold cell_x. unR. cbn [fst snd]. split.
      * destruct (Nat.ltb_spec i mx); cbn [andb]; auto. destruct (Nat.ltb_spec k my); auto. right. exists i, k. auto.
      * destruct (Nat.ltb_spec 0 i); cbn [andb]; auto. destruct (Nat.ltb_spec k my); auto. right. exists (i - 1)%nat, k. repeat split; auto. lia.
    + intros s e h h2 S E H H2. unfold grid_quad, wall_x_quad, qpts. cbn [q_a q_b q_c q_d]. rewrite !nidx_R.
      repeat (constructor; [|]); try constructor; unfold grid_pt.
      * exists i, s, h. repeat split; auto; lia.
      * exists i, e, h. repeat split; auto; lia.
      * exists i, s, h2. repeat split; auto; lia.
      * exists i, e, h2. repeat split; auto; lia.
  - exists Q. rewrite seq_length in B. auto.
Qed.
Lemma sides_y_any : forall (g : list (list R)) res mx my m, exists Q, sides_y g res mx my m = fold_left emitq Q m /\ (length Q <= S my * S mx)%nat /\
  Forall (grid_quad g res mx my) Q.
Proof.
  intros. unfold sides_y. match goal with |- context [fold_left ?F (seq 0 (S my)) m] =>
    destruct (fold_lines_any F (S mx) (grid_quad g res mx my) (seq 0 (S my))) with (m := m) as [Q [A [B C]]] end.
  - intros m1 i I. apply in_seq in I.
    apply (side_line_any mx _ _ (wall_y_quad res i) (fun h => h = 0 \/ exists x y, (x < mx)%nat /\ (y < my)%nat /\ cell_at g x y = h)).
    + reflexivity.
    + auto.
    + intros k K. unfold cell_y. unR. cbn [fst snd]. split.
      * destruct (Nat.ltb_spec k mx); cbn [andb]; auto. destruct (Nat.ltb_spec i my); auto. right. exists k, i. auto.
      * destruct (Nat.ltb_spec 0 i); cbn [andb]; auto. destruct (Nat.ltb_spec k mx); auto. right. exists k, (i - 1)%nat. repeat split; auto. lia.
    + intros s e h h2 S E H H2. unfold grid_quad, wall_y_quad, qpts. cbn [q_a q_b q_c q_d]. rewrite !nidx_R.
      repeat (constructor; [|]); try constructor; unfold grid_pt.
      * exists s, i, h. repeat split; auto; lia.
      * exists e, i, h. repeat split; auto; lia.
      * exists s, i, h2. repeat split; auto; lia.
      * exists e, i, h2. repeat split; auto; lia.
  - exists Q. rewrite seq_length in B. auto.
Qed.
Lemma rect_grid : forall g res mx my r, rect_ok g mx my r -> grid_quad g res mx my (rect_quad res r).
Proof.
  intros g res mx my [[[[x0 y0] x1] y1] h] [X [Y [_ [E _]]]]. unfold grid_quad, rect_quad, qpts. cbn [q_a q_b q_c q_d].
  assert (H : h = 0 \/ exists x y, (x < mx)%nat /\ (y < my)%nat /\ cell_at g x y = h) by (right; exists x0, y0; repeat split; auto; lia).
  repeat (constructor; [|]); try constructor; unfold grid_pt.
  - exists x0, y0, h. repeat split; auto; lia.
  - exists x1, y0, h. repeat split; auto; lia.
  - exists x0, y1, h. repeat split; auto; lia.
  - exists x1, y1, h. repeat split; auto; lia.
Qed.
(** enough indices for all vertices *)
Definition small_grid (mx my : nat) : Prop := (12 * (N.of_nat mx + 1) * (N.of_nat my + 1) <= 2 ^ 32)%N.

Lemma grid_mesh_any : forall (g : list (list R)) res mx my, small_grid mx my -> exists rs Q,
  gq (grid_mesh g res mx my) (map (rect_quad res) rs ++ Q) /\ Forall (rect_ok g mx my) rs /\
  (forall x y, (x < mx)%nat -> (y < my)%nat -> 0 < cell_at g x y -> exists r, In r rs /\ rect_has x y r) /\
  (4 * (length rs + length Q) < 12 * (mx + 1) * (my + 1))%nat /\ Forall (grid_pt g res mx my) (m_points (grid_mesh g res mx my)).
Proof.
  intros g res mx my SG. unfold grid_mesh. destruct (top_faces_spec g res mx my mesh_new) as [rs [A [B [C D]]]]. rewrite A.
  destruct (sides_x_any g res mx my (fold_left emitq (map (rect_quad res) rs) mesh_new)) as [Q1 [A1 [B1 C1]]]. rewrite A1.
  match goal with |- context [sides_y g res mx my ?m] => destruct (sides_y_any g res mx my m) as [Q2 [A2 [B2 C2]]] end. rewrite A2.
  exists rs, (Q1 ++ Q2). rewrite <- !fold_left_app, app_assoc.
  assert (L : (4 * (length rs + (length Q1 + length Q2)) < 12 * (mx + 1) * (my + 1))%nat) by lia.
  assert (G : gq (fold_left emitq ((map (rect_quad res) rs ++ Q1) ++ Q2) mesh_new) ((map (rect_quad res) rs ++ Q1) ++ Q2)).
  { match goal with |- gq (fold_left emitq ?l _) ?l' => change (gq (fold_left emitq l mesh_new) ([] ++ l)) end.
    apply emits_gq; [apply new_gq|]. rewrite !app_length, map_length. cbn [length]. unfold small_grid in SG. lia. }
  split; [exact G|]. split; [auto|]. split; [auto|]. split; [rewrite app_length; lia|].
  rewrite (proj1 G). apply Forall_flat_map. rewrite !Forall_app. split; [split|]; auto.
  apply Forall_map. eapply Forall_impl; [|exact C]. intros r. apply rect_grid.
Qed.

(** *** side faces of a separated grid *)
Lemma hz_cell : forall g my x y, s_rect g my -> s_hz g (Z.of_nat x) (Z.of_nat y) = if (Nat.ltb x (length g) && Nat.ltb y my)%bool then cell_at g x y else 0.
Proof.
  intros g my x y R. unfold s_hz. replace (Z.of_nat x <? 0)%Z with false by (symmetry; apply Z.ltb_ge; lia).
  replace (Z.of_nat y <? 0)%Z with false by (symmetry; apply Z.ltb_ge; lia). cbn [orb]. rewrite !Nat2Z.id.
  rewrite s_nth_nth_error. destruct (nth_error g x) as [row|] eqn:E.
  - assert (X : (x < length g)%nat) by (apply nth_error_Some; congruence). apply Nat.ltb_lt in X. rewrite X. cbn [andb].
    rewrite s_nth_nth_error. unfold cell_at. rewrite (nth_error_nth _ _ _ E). rewrite <- (R row) by (eapply nth_error_In; eauto).
    destruct (nth_error row y) as [h|] eqn:F.
    + assert (Y : (y < length row)%nat) by (apply nth_error_Some; congruence). apply Nat.ltb_lt in Y. rewrite Y. symmetry. apply nth_error_nth. auto.
    + apply nth_error_None in F. apply Nat.ltb_ge in F. rewrite F. auto.
  - apply nth_error_None in E. apply Nat.ltb_ge in E. rewrite E. auto.
Qed.
Lemma hz_neg : forall g x y, (x < 0 \/ y < 0)%Z -> s_hz g x y = 0.
Proof. intros g x y H. unfold s_hz. replace ((x <? 0) || (y <? 0))%Z%bool with true; auto. symmetry. apply orb_true_iff. rewrite !Z.ltb_lt. auto. Qed.
Definition hs (g : list (list R)) (h : R) : Prop := h = 0 \/ exists x y, s_height g x y h.
Lemma hz_hs : forall g my x y, s_rect g my -> hs g (s_hz g x y).
Proof.
  intros g my x y R. destruct (Z_lt_dec x 0); [left; apply hz_neg; auto|]. destruct (Z_lt_dec y 0); [left; apply hz_neg; auto|].
  rewrite <- (Z2Nat.id x), <- (Z2Nat.id y) by lia. rewrite (hz_cell g my) by auto.
  destruct (Nat.ltb (Z.to_nat x) (length g) && Nat.ltb (Z.to_nat y) my)%bool eqn:E; [|left; auto].
  right. exists (Z.to_nat x), (Z.to_nat y). apply andb_prop in E. rewrite !Nat.ltb_lt in E. apply (height_cell g my); auto. tauto.
Qed.
Lemma cell_x_hz : forall g my i k, s_rect g my -> (i <= length g)%nat ->
  cell_x g (length g) my i k = (s_hz g (Z.of_nat i) (Z.of_nat k), s_hz g (Z.of_nat i - 1) (Z.of_nat k)).
Proof.
  intros g my i k R I. unfold cell_x. unR. rewrite (hz_cell g my) by auto. f_equal. destruct i as [|i].
  - cbn [Nat.ltb Nat.leb andb]. rewrite hz_neg; auto. lia.
  - replace (Z.of_nat (S i) - 1)%Z with (Z.of_nat i) by lia. rewrite (hz_cell g my) by auto.
    replace (Nat.ltb i (length g)) with true by (symmetry; apply Nat.ltb_lt; lia).
    replace (Nat.ltb 0 (S i)) with true by (symmetry; apply Nat.ltb_lt; lia). replace (S i - 1)%nat with i by lia. auto.
Qed.
Lemma cell_y_hz : forall g my i k, s_rect g my -> (i <= my)%nat ->
  cell_y g (length g) my i k = (s_hz g (Z.of_nat k) (Z.of_nat i), s_hz g (Z.of_nat k) (Z.of_nat i - 1)).
Proof.
  intros g my i k R I. unfold cell_y. unR. rewrite (hz_cell g my) by auto. f_equal. destruct i as [|i].
  - cbn [Nat.ltb Nat.leb andb]. rewrite hz_neg; auto. lia.
  - replace (Z.of_nat (S i) - 1)%Z with (Z.of_nat i) by lia. rewrite (hz_cell g my) by auto.
    replace (Nat.ltb i my) with true by (symmetry; apply Nat.ltb_lt; lia).
    replace (Nat.ltb 0 (S i)) with true by (symmetry; apply Nat.ltb_lt; lia). replace (S i - 1)%nat with i by lia. rewrite andb_true_r. auto.
Qed.

Definition wq (wf : nat -> nat -> nat -> R -> R -> quad R) (w : s_wall) : quad R := let '(i, s, e, h, h2) := w in wf i s e h h2.
(** all lines of one axis *)
Lemma lines_spec : forall (cell : nat -> nat -> R * R) (wf : nat -> nat -> nat -> R -> R -> quad R) nk N f,
  (forall i m, (i < N)%nat -> f m i = side_line nk (cell i) (fun s e h h2 m => emitq m (wf i s e h h2)) m) ->
  (forall i, (i < N)%nat -> (forall k k', (k <= nk)%nat -> (k' <= nk)%nat ->
    (fst (cell i k) = fst (cell i k') \/ eps < Rabs (fst (cell i k) - fst (cell i k'))) /\
    (snd (cell i k) = snd (cell i k') \/ eps < Rabs (snd (cell i k) - snd (cell i k'))) /\
    (fst (cell i k) = snd (cell i k) \/ eps < Rabs (fst (cell i k) - snd (cell i k)))) /\ cell i nk = (0, 0)) ->
  forall n m, (n <= N)%nat -> exists W, fold_left f (seq 0 n) m = fold_left emitq (map (wq wf) W) m /\ (length W <= n * nk)%nat /\
    (forall i s e h h2, In (i, s, e, h, h2) W -> (i < n)%nat /\ (s < e <= nk)%nat /\ h <> h2 /\ forall k, (s <= k < e)%nat -> cell i k = (h, h2)) /\
    (forall i k, (i < n)%nat -> (k < nk)%nat ->
      length (filter (s_wall_has i k) W) = if Req_EM_T (fst (cell i k)) (snd (cell i k)) then 0%nat else 1%nat).
Proof.
  intros cell wf nk N f F S. induction n as [|n IH]; intros m L.
  - exists []. cbn. repeat split; auto; try (intros; contradiction). intros; lia.
  - destruct (IH m ltac:(lia)) as [W [A [B [C D]]]]. rewrite seq_S, fold_left_app, A. cbn [Nat.add fold_left]. rewrite F by lia.
    destruct (S n ltac:(lia)) as [S1 S2].
    destruct (side_line_spec nk (cell n) (fun s e h h2 m => emitq m (wf n s e h h2)) S1 S2 (fold_left emitq (map (wq wf) W) m)) as [rs [A' [B' [C' D']]]].
    rewrite A'. set (up := fun r : run => let '(s, e, h, h2) := r in (n, s, e, h, h2) : s_wall). exists (W ++ map up rs).
    split; [|split; [|split]].
    + rewrite map_app, fold_left_app, map_map. generalize (fold_left emitq (map (wq wf) W) m). clear. induction rs as [|[[[s e] h] h2] rs IH]; intros m0; cbn; auto.
    + rewrite app_length, map_length. cbn [Nat.mul]. lia.
    + intros i s e h h2 I. rewrite in_app_iff in I. destruct I as [I|I].
      * destruct (C i s e h h2 I) as [? X]. split; [lia|auto].
      * apply in_map_iff in I. destruct I as [[[[s' e'] h'] h2'] [E I]]. cbn in E. injection E as <- <- <- <- <-.
        rewrite Forall_forall in B'. specialize (B' _ I). destruct B' as [B1 [B2 B3]]. split; [lia|auto].
    + intros i k I K. rewrite filter_app, app_length.
      assert (U : forall rs', length (filter (s_wall_has i k) (map up rs')) = if Nat.eqb i n then length (filter (run_has k) rs') else 0%nat).
      { clear. induction rs' as [|[[[s e] h] h2] rs' IH]; cbn [map filter length].
        - destruct (Nat.eqb i n); auto.
        - cbn [up s_wall_has run_has]. destruct (Nat.eqb i n); cbn [andb]; [|auto]. destruct (Nat.leb s k && Nat.ltb k e)%bool; cbn [length]; auto. }
      rewrite U. destruct (Nat.eqb_spec i n) as [->|NE].
      * rewrite D' by auto.
        assert (Z : length (filter (s_wall_has n k) W) = 0%nat).
        { assert (G : forall W', (forall i s e h h2, In (i, s, e, h, h2) W' -> (i < n)%nat) -> length (filter (s_wall_has n k) W') = 0%nat).
          { clear. induction W' as [|[[[[i s] e] h] h2] W' IH]; intros H; cbn [filter length]; auto.
            cbn [s_wall_has]. specialize (H i s e h h2 (or_introl eq_refl)) as H'. destruct (Nat.eqb_spec n i); [lia|]. cbn [andb]. apply IH.
            intros. eapply H. right. eauto. }
          apply G. intros i s e h h2 X. apply (C i s e h h2 X). }
        lia.
      * rewrite Nat.add_0_r. apply D; lia.
Qed.

Lemma sep_hs : forall g my, s_separated g -> s_rect g my -> forall x y x' y', s_hz g x y = s_hz g x' y' \/ eps < Rabs (s_hz g x y - s_hz g x' y').
Proof. intros g my S R x y x' y'. apply S; eapply hz_hs; eauto. Qed.

Definition prof_x (g : list (list R)) (i k : nat) := (s_hz g (Z.of_nat i) (Z.of_nat k), s_hz g (Z.of_nat i - 1) (Z.of_nat k)).
Definition prof_y (g : list (list R)) (i k : nat) := (s_hz g (Z.of_nat k) (Z.of_nat i), s_hz g (Z.of_nat k) (Z.of_nat i - 1)).

Lemma sides_x_spec : forall g my res m, s_rect g my -> s_separated g ->
  exists W, sides_x g res (length g) my m = fold_left emitq (map (wq (wall_x_quad res)) W) m /\ (length W <= S (length g) * my)%nat /\
    s_walls (prof_x g) (length g) my W.
Proof.
  intros g my res m R S. unfold sides_x.
  match goal with |- context [fold_left ?F (seq 0 (Datatypes.S (length g))) m] => 
    destruct (lines_spec (cell_x g (length g) my) (wall_x_quad res) my (Datatypes.S (length g)) F) with (n := Datatypes.S (length g)) (m := m) as [W [A [B [C D]]]] end.
  - reflexivity.
  - intros i I. split.
    + intros k k' K K'. rewrite !cell_x_hz by (auto; lia). cbn [fst snd]. repeat split; apply (sep_hs g my); auto.
    + rewrite cell_x_hz by (auto; lia). rewrite (hz_cell g my), Nat.ltb_irrefl, andb_false_r by auto. f_equal.
      destruct i as [|i]; [apply hz_neg; lia|]. replace (Z.of_nat (Datatypes.S i) - 1)%Z with (Z.of_nat i) by lia.
      rewrite (hz_cell g my), Nat.ltb_irrefl, andb_false_r by auto. auto.
  - auto.
  - exists W. split; auto. split; auto. split.
    + intros i s e h h2 I. destruct (C i s e h h2 I) as [C1 [C2 [C3 C4]]]. split; [lia|]. split; auto. split; auto.
      intros k K. rewrite <- (C4 k K). unfold prof_x. rewrite cell_x_hz by (auto; lia). auto.
    + intros i k I K. rewrite D by lia. unfold prof_x. rewrite cell_x_hz by (auto; lia). auto.
Qed.
Lemma sides_y_spec : forall g my res m, s_rect g my -> s_separated g ->
  exists W, sides_y g res (length g) my m = fold_left emitq (map (wq (wall_y_quad res)) W) m /\ (length W <= S my * length g)%nat /\
    s_walls (prof_y g) my (length g) W.
Proof.
  intros g my res m R S. unfold sides_y.
  match goal with |- context [fold_left ?F (seq 0 (Datatypes.S my)) m] => 
    destruct (lines_spec (cell_y g (length g) my) (wall_y_quad res) (length g) (Datatypes.S my) F) with (n := Datatypes.S my) (m := m) as [W [A [B [C D]]]] end.
  - reflexivity.
  - intros i I. split.
    + intros k k' K K'. rewrite !cell_y_hz by (auto; lia). cbn [fst snd]. repeat split; apply (sep_hs g my); auto.
    + rewrite cell_y_hz by (auto; lia). rewrite (hz_cell g my), Nat.ltb_irrefl by auto. cbn [andb]. f_equal.
      destruct i as [|i]; [apply hz_neg; lia|]. replace (Z.of_nat (Datatypes.S i) - 1)%Z with (Z.of_nat i) by lia.
      rewrite (hz_cell g my), Nat.ltb_irrefl by auto. auto.
  - auto.
  - exists W. split; auto. split; auto. split.
    + intros i s e h h2 I. destruct (C i s e h h2 I) as [C1 [C2 [C3 C4]]]. split; [lia|]. split; auto. split; auto.
      intros k K. rewrite <- (C4 k K). unfold prof_y. rewrite cell_y_hz by (auto; lia). auto.
    + intros i k I K. rewrite D by lia. unfold prof_y. rewrite cell_y_hz by (auto; lia). auto.
Qed.

(** *** triangles and points of the rectangles *)
Definition top_tris (res : R) (r : rect) := let '(x0, y0, x1, y1, h) := r in s_top res x0 y0 x1 y1 h.
Definition wx_tris (res : R) (w : s_wall) := let '(i, s, e, h, h2) := w in s_wall_x res i s e h h2.
Definition wy_tris (res : R) (w : s_wall) := let '(i, s, e, h, h2) := w in s_wall_y res i s e h h2.
Lemma rect_tris : forall res r, qtris (rect_quad res r) = top_tris res r.
Proof. intros res [[[[x0 y0] x1] y1] h]. unfold qtris, rect_quad, top_tris, s_top. cbn [kf q_k q_a q_b q_c q_d]. rewrite !(Rmult_comm res). reflexivity. Qed.
Lemma wallx_tris : forall res w, qtris (wq (wall_x_quad res) w) = wx_tris res w.
Proof. intros res [[[[i s] e] h] h2]. unfold qtris, wq, wall_x_quad, wx_tris, s_wall_x. cbn [kf q_k q_a q_b q_c q_d]. rewrite !nidx_R, !(Rmult_comm res). reflexivity. Qed.
Lemma wally_tris : forall res w, qtris (wq (wall_y_quad res) w) = wy_tris res w.
Proof. intros res [[[[i s] e] h] h2]. unfold qtris, wq, wall_y_quad, wy_tris, s_wall_y. cbn [kf q_k q_a q_b q_c q_d]. rewrite !nidx_R, !(Rmult_comm res). reflexivity. Qed.
Lemma flat_map_map : forall A B C (f : A -> B) (g : B -> list C) l, flat_map g (map f l) = flat_map (fun a => g (f a)) l.
Proof. induction l; cbn; auto. f_equal; auto. Qed.

Lemma grid_mesh_sep : forall g my res, s_rect g my -> s_separated g -> small_grid (length g) my -> exists rs Wx Wy,
  gq (grid_mesh g res (length g) my) (map (rect_quad res) rs ++ map (wq (wall_x_quad res)) Wx ++ map (wq (wall_y_quad res)) Wy) /\
  Forall (rect_ok g (length g) my) rs /\
  (forall x y, (x < length g)%nat -> (y < my)%nat -> 0 < cell_at g x y -> exists r, In r rs /\ rect_has x y r) /\
  s_walls (prof_x g) (length g) my Wx /\ s_walls (prof_y g) my (length g) Wy.
Proof.
  intros g my res R S SG. unfold grid_mesh. destruct (top_faces_spec g res (length g) my mesh_new) as [rs [A [B [C D]]]]. rewrite A.
  match goal with |- context [sides_x g res (length g) my ?m] => destruct (sides_x_spec g my res m R S) as [Wx [A1 [B1 C1]]] end. rewrite A1.
  match goal with |- context [sides_y g res (length g) my ?m] => destruct (sides_y_spec g my res m R S) as [Wy [A2 [B2 C2]]] end. rewrite A2.
  exists rs, Wx, Wy. rewrite <- !fold_left_app. split; [|auto].
  match goal with |- gq (fold_left emitq ?l _) _ => change (gq (fold_left emitq l mesh_new) ([] ++ l)) end.
  apply emits_gq; [apply new_gq|]. rewrite !app_length, !map_length. cbn [length]. unfold small_grid in SG. lia.
Qed.
