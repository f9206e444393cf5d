(** Height maps: construction of the padded grid, termination, and the surface mesh *)
From Coq Require Import ZArith NArith List Bool Lia Reals Lra.
From Verif Require Import Num MathTypes Outcome Mesh Box Spec P_Tac P_Math P_Mesh P_MeshFilter P_Box HeightMap SpecHeight P_Height.
Import ListNotations.

Section Any.
  Context {T : Type} {NT : Num T}.

  Lemma pow_size_ok : forall size, (size <= 2 ^ 31)%N -> forall n j fuel, (j + n = 31)%nat -> (S n < fuel)%nat ->
    exists k, pow_size fuel (2 ^ N.of_nat j) size = Ret (2 ^ N.of_nat k)%N /\ (size <= 2 ^ N.of_nat k)%N /\ (k <= 31)%nat.
  Proof.
    intros size SZ. induction n as [|n IH]; intros j fuel J F; (destruct fuel as [|fuel]; [lia|]); cbn [pow_size].
    - assert (j = 31)%nat as -> by lia. exists 31%nat. change (N.of_nat 31) with 31%N. destruct (N.ltb_spec (2 ^ 31) size); [lia|]. auto.
    - destruct (N.ltb_spec (2 ^ N.of_nat j) size).
      + replace (u32 (2 ^ N.of_nat j * 2)) with (2 ^ N.of_nat (S j))%N.
        * apply IH; lia.
        * unfold u32. rewrite Nnat.Nat2N.inj_succ, N.pow_succ_r'. rewrite N.mod_small; [apply N.mul_comm|].
          assert (2 ^ N.of_nat j <= 2 ^ 30)%N by (apply N.pow_le_mono_r; lia). change 4294967296%N with (2 ^ 30 * 4)%N. lia.
      + exists j. repeat split; auto. lia.
  Qed.
  (** more than 2^31 rows or columns: the doubling wraps to 0 and the loop never ends *)
  Lemma pow_size_zero : forall fuel size, (0 < size)%N -> pow_size fuel 0 size = Fuel.
  Proof. induction fuel; intros size S; cbn [pow_size]; auto. destruct (N.ltb_spec 0 size); [apply IHfuel; auto|lia]. Qed.
  Lemma pow_size_diverges : forall size, (2 ^ 31 < size)%N -> forall n j fuel, (j + n = 31)%nat -> pow_size fuel (2 ^ N.of_nat j) size = Fuel.
  Proof.
    intros size SZ. induction n as [|n IH]; intros j fuel J; (destruct fuel as [|fuel]; [auto|]); cbn [pow_size].
    - assert (j = 31)%nat as -> by lia. change (N.of_nat 31) with 31%N. destruct (N.ltb_spec (2 ^ 31) size); [|lia].
      change (u32 (2 ^ 31 * 2)) with 0%N. apply pow_size_zero. lia.
    - assert (2 ^ N.of_nat j <= 2 ^ 30)%N by (apply N.pow_le_mono_r; lia). assert (2 ^ 30 < 2 ^ 31)%N by reflexivity.
      destruct (N.ltb_spec (2 ^ N.of_nat j) size); [|lia].
      replace (u32 (2 ^ N.of_nat j * 2)) with (2 ^ N.of_nat (S j))%N.
      + apply IH; lia.
      + unfold u32. rewrite Nnat.Nat2N.inj_succ, N.pow_succ_r'. rewrite N.mod_small; [apply N.mul_comm|].
        change 4294967296%N with (2 ^ 30 * 4)%N. lia.
  Qed.

  Lemma take_row_ok : forall (row : list T) n, (n <= length row)%nat -> take_row row n = Ret (firstn n row).
  Proof.
    induction row as [|a r IH]; intros [|n] L; cbn in *; auto; [lia|]. rewrite IH by lia. reflexivity.
  Qed.
  Lemma take_row_short : forall (row : list T) n, (length row < n)%nat -> take_row row n = UB.
  Proof. induction row as [|a r IH]; intros [|n] L; cbn in *; auto; [lia|lia|]. rewrite IH by lia. reflexivity. Qed.
  Lemma pow_rows_ok : forall (g : list (list T)) my p, (forall row, In row g -> (my <= length row)%nat) ->
    pow_rows g my p = Ret (map (fun row => firstn my row ++ repeat n0 (p - my)) g).
  Proof.
    induction g as [|row g IH]; intros my p H; cbn [pow_rows map]; auto. rewrite take_row_ok by (apply H; left; auto). cbn [obind].
    rewrite IH by (intros; apply H; right; auto). reflexivity.
  Qed.
  Lemma pow_rows_short : forall (g : list (list T)) my p, (exists row, In row g /\ (length row < my)%nat) -> pow_rows g my p = UB.
  Proof.
    induction g as [|row g IH]; intros my p [r [R L]]; [destruct R|]. cbn [pow_rows]. destruct (le_lt_dec my (length row)) as [A|A].
    - rewrite take_row_ok by auto. cbn [obind]. destruct R as [->|R]; [lia|]. rewrite IH; eauto.
    - rewrite take_row_short by auto. reflexivity.
  Qed.
  Lemma nth_repeat_same : forall A (a : A) n i, nth i (repeat a n) a = a.
  Proof. induction n; destruct i; cbn; auto. Qed.
  (** the padding does not change any cell *)
  Lemma pow_grid_cell : forall (g : list (list T)) my p, s_rect g my -> (my <= p)%nat ->
    exists pg, pow_grid g my p = Ret pg /\ forall x y, cell_at pg x y = cell_at g x y.
  Proof.
    intros g my p R P. unfold pow_grid. rewrite pow_rows_ok by (intros row I; rewrite (R row I); auto). cbn [obind]. eexists. split; [reflexivity|].
    intros x y. unfold cell_at. destruct (le_lt_dec (length g) x) as [L|L].
    - rewrite app_nth2 by (rewrite map_length; auto). rewrite (nth_overflow g) by auto.
      assert (E : forall n i, nth i (repeat (repeat (n0 : T) p) n) [] = repeat n0 p \/ nth i (repeat (repeat (n0 : T) p) n) [] = []).
      { induction n; destruct i; cbn; auto. }
      destruct (E (p - length g)%nat (x - length (map (fun row => firstn my row ++ repeat n0 (p - my)) g))%nat) as [-> | ->].
      + rewrite nth_repeat_same. destruct y; auto.
      + destruct y; auto.
    - rewrite app_nth1 by (rewrite map_length; auto).
      rewrite (nth_indep _ [] ((fun row => firstn my row ++ repeat n0 (p - my)) [])) by (rewrite map_length; auto).
      rewrite (map_nth (fun row => firstn my row ++ repeat n0 (p - my))).
      assert (LR : length (nth x g []) = my) by (apply R, nth_In; auto). set (row := nth x g []) in *.
      rewrite firstn_all2 by lia. destruct (le_lt_dec my y) as [Y|Y].
      + rewrite app_nth2 by lia. rewrite nth_repeat_same, nth_overflow by lia. auto.
      + apply app_nth1. lia.
  Qed.
  Lemma height_cell : forall (g : list (list T)) my x y h, s_rect g my ->
    (s_height g x y h <-> (x < length g)%nat /\ (y < my)%nat /\ cell_at g x y = h).
  Proof.
    intros g my x y h R. unfold s_height, cell_at. split.
    - intros [row [A B]]. rewrite s_nth_nth_error in A, B.
      assert (x < length g)%nat by (apply nth_error_Some; congruence). assert (y < length row)%nat by (apply nth_error_Some; congruence).
      rewrite (R row) in * by (eapply nth_error_In; eauto). repeat split; auto.
      rewrite (nth_error_nth _ _ _ A). apply nth_error_nth. auto.
    - intros [X [Y <-]]. exists (nth x g []). assert (I : In (nth x g []) g) by (apply nth_In; auto).
      rewrite !s_nth_nth_error. split; apply nth_error_nth'; auto. rewrite (R _ I). auto.
  Qed.

  (** the quad tree is always built: the assertion holds and the recursion ends *)
  Lemma quad_total : forall k fuel (g : list (list T)) x0 y0 res, (k < fuel)%nat ->
    exists nd, quad_tree fuel g x0 y0 (x0 + 2 ^ k) (y0 + 2 ^ k) res = Ret nd.
  Proof.
    induction k as [|k IH]; intros fuel g x0 y0 res F; (destruct fuel as [|fuel]; [lia|]); cbn [quad_tree].
    - destruct (neqb _ _); [eauto|]. change (2 ^ 0)%nat with 1%nat. replace (x0 + 1 - x0)%nat with 1%nat by lia. replace (y0 + 1 - y0)%nat with 1%nat by lia.
      cbn [Nat.eqb orb andb]. eauto.
    - destruct (neqb _ _); [eauto|].
      assert (P2 : (0 < 2 ^ k)%nat) by (apply Nat.neq_0_lt_0, Nat.pow_nonzero; lia).
      assert (PS : (2 ^ S k = 2 ^ k + 2 ^ k)%nat) by (cbn [Nat.pow]; lia).
      replace (Nat.eqb (x0 + 2 ^ S k - x0) 1) with false by (symmetry; apply Nat.eqb_neq; lia).
      replace (Nat.eqb (y0 + 2 ^ S k - y0) 1) with false by (symmetry; apply Nat.eqb_neq; lia). cbn [orb].
      replace (Nat.div (x0 + 2 ^ S k + x0) 2) with (x0 + 2 ^ k)%nat
        by (symmetry; replace (x0 + 2 ^ S k + x0)%nat with ((x0 + 2 ^ k) * 2)%nat by lia; apply Nat.div_mul; lia).
      replace (Nat.div (y0 + 2 ^ S k + y0) 2) with (y0 + 2 ^ k)%nat
        by (symmetry; replace (y0 + 2 ^ S k + y0)%nat with ((y0 + 2 ^ k) * 2)%nat by lia; apply Nat.div_mul; lia).
      replace (x0 + 2 ^ S k)%nat with (x0 + 2 ^ k + 2 ^ k)%nat by lia. replace (y0 + 2 ^ S k)%nat with (y0 + 2 ^ k + 2 ^ k)%nat by lia.
      destruct (IH fuel g x0 y0 res ltac:(lia)) as [c0 ->]. destruct (IH fuel g (x0 + 2 ^ k)%nat y0 res ltac:(lia)) as [c1 ->].
      destruct (IH fuel g x0 (y0 + 2 ^ k)%nat res ltac:(lia)) as [c2 ->]. destruct (IH fuel g (x0 + 2 ^ k)%nat (y0 + 2 ^ k)%nat res ltac:(lia)) as [c3 ->].
      cbn [obind]. eauto.
  Qed.

  (** *** sequences of emitted rectangles *)
  Inductive kind := KT | KX | KY.
  Record quad := Quad { q_k : kind; q_a : vec3 T; q_b : vec3 T; q_c : vec3 T; q_d : vec3 T }.
  Definition kf (k : kind) {A} (p0 p1 p2 p3 : A) : list (A * A * A) :=
    match k with
    | KT => [(p0, p1, p2); (p1, p3, p2)]
    | KX => [(p1, p2, p0); (p2, p1, p3)]
    | KY => [(p2, p1, p0); (p1, p2, p3)]
    end.
  Definition qpts (q : quad) := [q_a q; q_b q; q_c q; q_d q].
  Definition qtris (q : quad) := kf (q_k q) (q_a q) (q_b q) (q_c q) (q_d q).
  Definition emitq (m : mesh T) (q : quad) : mesh T := emit4 m (q_a q) (q_b q) (q_c q) (q_d q) (kf (q_k q)).
  Definition gq (m : mesh T) (Q : list quad) : Prop :=
    m_points m = flat_map qpts Q /\ s_soup (m_points m) (map idx (m_tris m)) = Some (flat_map qtris Q).

  Lemma fold_tris : forall l (m : mesh T), let m' := fold_left (fun m t => addTriangle m (fst (fst t)) (snd (fst t)) (snd t)) l m in
    m_points m' = m_points m /\ map idx (m_tris m') = map idx (m_tris m) ++ l.
  Proof.
    induction l as [|[[a b] c] l IH]; intros m; cbn [fold_left].
    - rewrite app_nil_r. auto.
    - cbv zeta in *. destruct (IH (addTriangle m a b c)) as [A B]. cbn [fst snd]. rewrite A, B. cbn. split; auto.
      rewrite map_app. cbn. rewrite <- app_assoc. reflexivity.
  Qed.
  Lemma qpts_len : forall Q, length (flat_map qpts Q) = (4 * length Q)%nat.
  Proof. induction Q; cbn [flat_map length]; auto. rewrite app_length, IHQ. cbn [qpts length]. lia. Qed.

  Lemma emit_gq : forall m Q q, gq m Q -> (N.of_nat (4 * (length Q + 1)) <= 2 ^ 32)%N -> gq (emitq m q) (Q ++ [q]).
  Proof.
    intros m Q q [P S] L. unfold gq, emitq, emit4, addPoint. rewrite !flat_map_app. cbn [flat_map]. rewrite !app_nil_r.
    cbn [m_points m_tris invalidate]. rewrite !app_length, P, !qpts_len. cbn [length].
    match goal with |- context [fold_left ?F ?l ?m0] => destruct (fold_tris l m0) as [A B]; set (M := fold_left F l m0) in * end.
    cbv zeta in A, B. rewrite A, B. cbn [m_points m_tris invalidate]. clear A B M.
    assert (E : (((flat_map qpts Q ++ [q_a q]) ++ [q_b q]) ++ [q_c q]) ++ [q_d q] = flat_map qpts Q ++ qpts q) by (rewrite <- !app_assoc; reflexivity).
    rewrite E. split; [auto|]. rewrite soup_app_ts, (soup_app_pts _ _ _ _ (eq_ind _ (fun p => s_soup p _ = _) S _ P)).
    set (n := (4 * length Q)%nat) in *.
    assert (U : forall i, (i < 4)%nat -> u32 (N.of_nat (n + i)) = N.of_nat (n + i)).
    { intros i I. unfold u32. apply N.mod_small. change 4294967296%N with (2 ^ 32)%N. lia. }
    assert (U0 : u32 (N.of_nat n) = N.of_nat n). { pose proof (U 0%nat ltac:(lia)) as U0. rewrite Nat.add_0_r in U0. auto. }
    replace (n + 1 + 1 + 1)%nat with (n + 3)%nat by lia. replace (n + 1 + 1)%nat with (n + 2)%nat by lia. rewrite U0, !U by lia.
    assert (NT' : forall i, s_nth (flat_map qpts Q ++ qpts q) (N.to_nat (N.of_nat (n + i))) = nth_error (qpts q) i).
    { intros i. rewrite Nnat.Nat2N.id, s_nth_nth_error, nth_error_app2 by (rewrite qpts_len; lia). f_equal. rewrite qpts_len. lia. }
    assert (NT0 : s_nth (flat_map qpts Q ++ qpts q) (N.to_nat (N.of_nat n)) = Some (q_a q)).
    { specialize (NT' 0%nat). rewrite Nat.add_0_r in NT'. rewrite NT'. reflexivity. }
    destruct (q_k q) eqn:K; unfold qtris; rewrite K; cbn [kf s_soup]; rewrite ?NT0, ?(NT' 1%nat), ?(NT' 2%nat), ?(NT' 3%nat); reflexivity.
  Qed.
  Lemma emits_gq : forall Q m Q0, gq m Q0 -> (N.of_nat (4 * (length Q0 + length Q)) <= 2 ^ 32)%N -> gq (fold_left emitq Q m) (Q0 ++ Q).
  Proof.
    induction Q as [|q Q IH]; intros m Q0 G L; cbn [fold_left].
    - rewrite app_nil_r. auto.
    - cbn [length] in L. replace (Q0 ++ q :: Q) with ((Q0 ++ [q]) ++ Q) by (rewrite <- app_assoc; auto). apply IH.
      + apply emit_gq; auto. lia.
      + rewrite app_length. cbn [length]. lia.
  Qed.
  Lemma new_gq : gq mesh_new [].
  Proof. split; reflexivity. Qed.
End Any.
Arguments quad : clear implicits.

Local Open Scope R_scope.
Definition eps : R := 1 / 10 ^ 10.
Lemma eps10_R : (eps10 : R) = eps.
Proof. unfold eps10, eps. unR. lra. Qed.
Lemma eps_pos : 0 < eps. Proof. unfold eps. lra. Qed.

(** *** top faces *)
Section Top.
  Variables (g : list (list R)) (res : R) (mx my : nat).
  Definition rect := (nat * nat * nat * nat * R)%type.
  Definition close (h : R) (x y : nat) : Prop := Rabs (cell_at g x y - h) <= eps.

  Lemma scan_x_spec : forall h y2 n x2, let x' := scan_x g h y2 n x2 in
    (x2 <= x' <= x2 + n)%nat /\ (forall x, (x2 <= x < x')%nat -> close h x y2) /\
    ((0 < n)%nat -> close h x2 y2 -> (x2 < x')%nat).
  Proof.
    intros h y2. induction n as [|n IH]; intros x2; cbn [scan_x].
    - repeat split; try lia.
    - rewrite eps10_R. unfold close in *. cbn [nabs nsub nltb NumR]. destruct (Rltb eps (Rabs (cell_at g x2 y2 - h))) eqn:E; rboolH.
      + repeat split; try lia. intros _ X. lra.
      + destruct (IH (S x2)) as [A [B C]]. cbv zeta in *. repeat split; try lia.
        intros x X. destruct (Nat.eq_dec x x2) as [->|]; auto. apply B. lia.
  Qed.
  Lemma scan_y_spec : forall h x0 n y2 X, (x0 < X)%nat ->
    let (X', Y') := scan_y g h x0 n y2 X y2 in
    (x0 < X' <= X)%nat /\ (y2 <= Y' <= y2 + n)%nat /\ (forall x y, s_covers x0 y2 X' Y' x y -> close h x y) /\
    ((0 < n)%nat -> cell_at g x0 y2 = h -> (y2 < Y')%nat).
  Proof.
    intros h x0. induction n as [|n IH]; intros y2 X L; cbn [scan_y].
    - repeat split; try lia. intros x y [_ C]. lia.
    - rewrite eps10_R. cbn [nabs nsub nltb NumR]. destruct (Rltb (Rabs (cell_at g x0 y2 - h)) eps) eqn:E; rboolH.
      + destruct (scan_x_spec h y2 (X - x0) x0) as [A [B C]]. cbv zeta in *.
        specialize (C ltac:(lia)). assert (CL : close h x0 y2) by (unfold close; lra). specialize (C CL).
        set (X1 := scan_x _ _ _ _ _) in *. specialize (IH (S y2) X1 C). destruct (scan_y _ _ _ _ _ _ _) as [X' Y'].
        destruct IH as [I1 [I2 [I3 I4]]]. repeat split; try lia.
        intros x y [CX CY]. destruct (Nat.eq_dec y y2) as [->|]; [apply B; lia|]. apply I3. unfold s_covers. lia.
      + repeat split; try lia. { intros x y [_ C]. lia. }
        intros _ EQ. rewrite EQ in E. replace (h - h) with 0 in E by ring. rewrite Rabs_R0 in E. pose proof eps_pos. lra.
  Qed.

  Definition rect_ok (r : rect) : Prop := let '(x0, y0, x1, y1, h) := r in
    (x0 < x1 <= mx)%nat /\ (y0 < y1 <= my)%nat /\ 0 < h /\ cell_at g x0 y0 = h /\ forall x y, s_covers x0 y0 x1 y1 x y -> close h x y.
  Definition rect_has (x y : nat) (r : rect) : Prop := let '(x0, y0, x1, y1, h) := r in s_covers x0 y0 x1 y1 x y.
  Definition rect_quad (r : rect) : quad R := let '(x0, y0, x1, y1, h) := r in
    Quad KT (V3 (res * INR x0) (res * INR y0) h) (V3 (res * INR x1) (res * INR y0) h)
            (V3 (res * INR x0) (res * INR y1) h) (V3 (res * INR x1) (res * INR y1) h).

  Lemma top_fold : forall cells vis m rs,
    (forall c, In c cells -> (fst c < mx)%nat /\ (snd c < my)%nat) ->
    (forall x y, vis x y = true <-> exists r, In r rs /\ rect_has x y r) ->
    Forall rect_ok rs ->
    exists rs', snd (fold_left (top_step g res mx my) cells (vis, m)) = fold_left emitq (map rect_quad rs') m /\
      (length rs' <= length cells)%nat /\ Forall rect_ok rs' /\
      forall x y, In (x, y) cells -> 0 < cell_at g x y -> exists r, In r (rs ++ rs') /\ rect_has x y r.
  Proof.
    induction cells as [|[cx cy] cells IH]; intros vis m rs CB VI RO; cbn [fold_left].
    - exists []. cbn. repeat split; auto. intros x y [].
    - cbn [top_step]. destruct (CB (cx, cy) (or_introl eq_refl)) as [CX CY]. cbn [fst snd] in *.
      assert (CB' : forall c, In c cells -> (fst c < mx)%nat /\ (snd c < my)%nat) by (intros; apply CB; right; auto).
      destruct (negb (vis cx cy) && Rltb 0 (cell_at g cx cy))%bool eqn:E.
      + change (nltb n0 (cell_at g cx cy)) with (Rltb 0 (cell_at g cx cy)). rewrite E. apply andb_prop in E. destruct E as [E1 E2]. rboolH.
        pose proof (scan_y_spec (cell_at g cx cy) cx (my - cy) cy mx CX) as S. destruct (scan_y _ _ _ _ _ _ _) as [X Y].
        destruct S as [S1 [S2 [S3 S4]]]. specialize (S4 ltac:(lia) eq_refl).
        set (r := (cx, cy, X, Y, cell_at g cx cy) : rect).
        assert (ROK : rect_ok r). { unfold r, rect_ok. repeat split; try lia; auto. }
        match goal with |- context [fold_left _ cells (?v, ?m1)] => set (vis' := v); change m1 with (emitq m
          (Quad KT (V3 (res * nidx cx) (res * nidx cy) (cell_at g cx cy)) (V3 (res * nidx X) (res * nidx cy) (cell_at g cx cy))
            (V3 (res * nidx cx) (res * nidx Y) (cell_at g cx cy)) (V3 (res * nidx X) (res * nidx Y) (cell_at g cx cy)))) end.
        rewrite !nidx_R. match goal with |- context [emitq m ?q] => change q with (rect_quad r) end.
        assert (VI' : forall x y, vis' x y = true <-> exists r', In r' (rs ++ [r]) /\ rect_has x y r').
        { intros x y. unfold vis'. rewrite orb_true_iff, VI, !andb_true_iff, !Nat.leb_le, !Nat.ltb_lt. split.
          - intros [[r' [A B]]|A]; [exists r'; rewrite in_app_iff; auto|]. exists r. rewrite in_app_iff. split; [right; left; auto|].
            unfold r, rect_has, s_covers. lia.
          - intros [r' [A B]]. rewrite in_app_iff in A. destruct A as [A|[<-|[]]]; [left; eauto|]. right. unfold r, rect_has, s_covers in B. lia. }
        destruct (IH vis' (emitq m (rect_quad r)) (rs ++ [r]) CB' VI') as [rs' [I1 [I2 [I3 I4]]]]; [apply Forall_app; auto|].
        exists (r :: rs'). rewrite I1. cbn [map fold_left length]. repeat split; auto; [lia|].
        intros x y [A|A] P.
        * injection A as <- <-. exists r. rewrite in_app_iff. split; [right; left; auto|]. unfold r, rect_has, s_covers. lia.
        * destruct (I4 x y A P) as [r' [B C]]. exists r'. split; auto. rewrite <- app_assoc in B. auto.
      + change (nltb n0 (cell_at g cx cy)) with (Rltb 0 (cell_at g cx cy)). rewrite E.
        destruct (IH vis m rs CB' VI RO) as [rs' [I1 [I2 [I3 I4]]]]. exists rs'. cbn [length]. repeat split; auto.
        intros x y [A|A] P; [|auto]. injection A as <- <-. apply Rltb_true in P. rewrite P, andb_true_r in E. apply negb_false_iff in E.
        apply VI in E. destruct E as [r' [B C]]. exists r'. rewrite in_app_iff. auto.
  Qed.
  Lemma top_faces_spec : forall m, exists rs, top_faces g res mx my m = fold_left emitq (map rect_quad rs) m /\
    (length rs <= mx * my)%nat /\ Forall rect_ok rs /\
    forall x y, (x < mx)%nat -> (y < my)%nat -> 0 < cell_at g x y -> exists r, In r rs /\ rect_has x y r.
  Proof.
    intros m. unfold top_faces.
    destruct (top_fold (list_prod (seq 0 mx) (seq 0 my)) (fun _ _ => false) m []) as [rs [A [B [C D]]]]; auto.
    - intros [x y] I. apply in_prod_iff in I. rewrite !in_seq in I. cbn. lia.
    - intros x y. split; [discriminate|intros [r [[] _]]].
    - exists rs. rewrite prod_length, !seq_length in B. repeat split; auto. intros x y X Y P. apply (D x y); auto.
      apply in_prod_iff. rewrite !in_seq. lia.
  Qed.
End Top.

(** *** side faces along one line *)
Section Line.
  Variables (n : nat) (cell : nat -> R * R) (emit : nat -> nat -> R -> R -> mesh R -> mesh R).
  Definition run := (nat * nat * R * R)%type.
  Definition run_emit (m : mesh R) (r : run) : mesh R := let '(s, e, h, h2) := r in emit s e h h2 m.
  Definition run_ok (r : run) : Prop := let '(s, e, h, h2) := r in
    (s < e <= n)%nat /\ h <> h2 /\ forall k, (s <= k < e)%nat -> cell k = (h, h2).
  Definition run_has (k : nat) (r : run) : bool := let '(s, e, h, h2) := r in (Nat.leb s k && Nat.ltb k e)%bool.
  Hypothesis Sep : forall k k', (k <= n)%nat -> (k' <= n)%nat ->
    (fst (cell k) = fst (cell k') \/ eps < Rabs (fst (cell k) - fst (cell k'))) /\
    (snd (cell k) = snd (cell k') \/ eps < Rabs (snd (cell k) - snd (cell k'))) /\
    (fst (cell k) = snd (cell k) \/ eps < Rabs (fst (cell k) - snd (cell k))).
  Hypothesis End : cell n = (0, 0).

  (** state before index j: cells before j are settled by the finished runs and the open run *)
  Definition line_inv (j : nat) (st : R * R * option nat * mesh R) (rs : list run) (m0 : mesh R) : Prop :=
    let '(hl, h2l, start, m) := st in
    m = fold_left run_emit rs m0 /\ Forall run_ok rs /\ (length rs <= j)%nat /\
    (forall k, existsb (run_has k) rs = true -> (k < j)%nat) /\
    match start with
    | None => forall k, (k < j)%nat -> length (filter (run_has k) rs) = (if Req_EM_T (fst (cell k)) (snd (cell k)) then 0 else 1)%nat
    | Some s => (s < j)%nat /\ (forall k, (s <= k < j)%nat -> cell k = (hl, h2l)) /\ hl <> h2l /\ (length rs < j)%nat /\
        (forall k, (k < s)%nat -> length (filter (run_has k) rs) = (if Req_EM_T (fst (cell k)) (snd (cell k)) then 0 else 1)%nat) /\
        (forall k, existsb (run_has k) rs = true -> (k < s)%nat)
    end.
  Lemma filter_none : forall k rs, existsb (run_has k) rs = false -> length (filter (run_has k) rs) = 0%nat.
  Proof.
    induction rs as [|r rs IH]; cbn [existsb filter]; auto. intros E. apply orb_false_iff in E. destruct E as [-> E]. auto.
  Qed.
  Lemma line_step : forall j st rs m0, (j <= n)%nat -> line_inv j st rs m0 ->
    exists rs', line_inv (S j) (side_step cell emit st j) rs' m0.
  Proof.
    intros j [[[hl h2l] start] m] rs m0 J [E [RO [RL [RB RS]]]]. unfold side_step.
    destruct (cell j) as [h h2] eqn:C. rewrite eps10_R. cbn [nabs nsub nltb nadd NumR].
    destruct (Sep j j J J) as [_ [_ HD]]. rewrite C in HD. cbn [fst snd] in HD.
    set (fresh := if Rltb eps (Rabs (h - h2)) then Some j else None).
    assert (FR : (fresh = Some j /\ h <> h2) \/ (fresh = None /\ h = h2)).
    { unfold fresh. destruct (Rltb eps (Rabs (h - h2))) eqn:L; rboolH.
      - left. split; auto. intros ->. replace (h2 - h2) with 0 in L by ring. rewrite Rabs_R0 in L. pose proof eps_pos. lra.
      - right. split; auto. destruct HD; auto. lra. }
    assert (NJ : forall rs', (forall k, existsb (run_has k) rs' = true -> (k < j)%nat) -> length (filter (run_has j) rs') = 0%nat).
    { intros rs' B. apply filter_none. destruct (existsb (run_has j) rs') eqn:X; auto. specialize (B j X). lia. }
    assert (BASE : forall m' rs', m' = fold_left run_emit rs' m0 -> Forall run_ok rs' -> (length rs' <= j)%nat ->
      (forall k, existsb (run_has k) rs' = true -> (k < j)%nat) ->
      (forall k, (k < j)%nat -> length (filter (run_has k) rs') = (if Req_EM_T (fst (cell k)) (snd (cell k)) then 0 else 1)%nat) ->
      line_inv (S j) (h, h2, fresh, m') rs' m0).
    { intros m' rs' A1 A2 A3 A4 A5. unfold line_inv. split; [auto|]. split; [auto|]. split; [lia|].
      split; [intros k X; specialize (A4 k X); lia|].
      destruct FR as [[-> NE]|[-> EQ]].
      - split; [lia|]. split; [intros k K; assert (k = j) as -> by lia; auto|]. split; [auto|]. split; [lia|]. split; [auto|auto].
      - intros k K. destruct (Nat.eq_dec k j) as [->|]; [|apply A5; lia]. rewrite C. cbn [fst snd]. rewrite NJ by auto.
        destruct Req_EM_T; [auto|contradiction]. }
    destruct start as [s|].
    - destruct RS as [S1 [S2 [S3 [S4 [S5 S6]]]]].
      destruct (Rltb eps (Rabs (h - hl) + Rabs (h2 - h2l))) eqn:L; rboolH.
      + exists (rs ++ [(s, j, hl, h2l)]). apply BASE.
        * rewrite fold_left_app. cbn [fold_left run_emit]. rewrite E. auto.
        * apply Forall_app. split; auto. constructor; [|constructor]. repeat split; auto; lia.
        * rewrite app_length. cbn [length]. lia.
        * intros k X. rewrite existsb_app in X. cbn [existsb run_has] in X. rewrite orb_false_r, orb_true_iff, andb_true_iff, Nat.ltb_lt in X.
          destruct X as [X|X]; [specialize (RB k X); lia|lia].
        * intros k K. rewrite filter_app, app_length. cbn [filter run_has]. destruct (le_lt_dec s k) as [A|A].
          { replace (Nat.leb s k && Nat.ltb k j)%bool with true by (symmetry; apply andb_true_iff; rewrite Nat.leb_le, Nat.ltb_lt; lia).
            rewrite filter_none. 2:{ destruct (existsb (run_has k) rs) eqn:X; auto. specialize (S6 k X). lia. }
            rewrite (S2 k) by lia. cbn [fst snd length]. destruct Req_EM_T; [contradiction|auto]. }
          { replace (Nat.leb s k && Nat.ltb k j)%bool with false by (symmetry; apply andb_false_iff; left; apply Nat.leb_gt; lia).
            cbn [length]. rewrite S5 by lia. destruct Req_EM_T; auto. }
      + assert (EQ : h = hl /\ h2 = h2l).
        { pose proof (Rabs_pos (h - hl)). pose proof (Rabs_pos (h2 - h2l)).
          destruct (Sep j s J ltac:(lia)) as [D1 [D2 _]]. rewrite C, (S2 s) in D1, D2 by lia. cbn [fst snd] in D1, D2.
          destruct D1, D2; split; auto; lra. }
        destruct EQ as [-> ->]. exists rs. unfold line_inv. split; [auto|]. split; [auto|]. split; [lia|].
        split; [intros k X; specialize (RB k X); lia|]. split; [lia|]. split.
        { intros k K. destruct (Nat.eq_dec k j) as [->|]; [auto|apply S2; lia]. }
        split; [auto|]. split; [lia|]. auto.
    - exists rs. apply BASE; auto.
  Qed.
  Lemma line_fold : forall len j st rs m0, (j + len <= S n)%nat -> line_inv j st rs m0 ->
    exists rs', line_inv (j + len) (fold_left (side_step cell emit) (seq j len) st) rs' m0.
  Proof.
    induction len as [|len IH]; intros j st rs m0 L I; cbn [seq fold_left].
    - rewrite Nat.add_0_r. eauto.
    - destruct (line_step j st rs m0 ltac:(lia) I) as [rs' I']. rewrite <- plus_n_Sm. apply (IH (S j) _ rs' m0); auto. lia.
  Qed.
  Lemma side_line_spec : forall m0, exists rs, side_line n cell emit m0 = fold_left run_emit rs m0 /\ Forall run_ok rs /\ (length rs <= n)%nat /\
    forall k, (k < n)%nat -> length (filter (run_has k) rs) = (if Req_EM_T (fst (cell k)) (snd (cell k)) then 0 else 1)%nat.
  Proof.
    intros m0. unfold side_line. unR.
    destruct (line_fold n 0 (0, 0, None, m0) [] m0 ltac:(lia)) as [rs I].
    { unfold line_inv. cbn. split; auto. split; auto. split; auto. split; [discriminate|]. intros k K. lia. }
    rewrite seq_S, fold_left_app. cbn [Nat.add fold_left]. cbn [Nat.add] in I.
    destruct (fold_left (side_step cell emit) (seq 0 n) (0, 0, None, m0)) as [[[hl h2l] start] m]. destruct I as [E [RO [RL [RB RS]]]].
    cbn [side_step]. rewrite End, eps10_R. cbn [nabs nsub nltb nadd NumR].
    destruct start as [s|]; cbn [snd].
    - destruct RS as [S1 [S2 [S3 [S4 [S5 S6]]]]].
      destruct (Rltb eps (Rabs (0 - hl) + Rabs (0 - h2l))) eqn:L; rboolH; cbn [snd].
      + exists (rs ++ [(s, n, hl, h2l)]). split; [rewrite fold_left_app; cbn [fold_left run_emit]; rewrite E; auto|].
        split; [apply Forall_app; split; auto; constructor; [repeat split; auto; lia|constructor]|].
        split; [rewrite app_length; cbn [length]; lia|].
        intros k K. rewrite filter_app, app_length. cbn [filter run_has]. destruct (le_lt_dec s k) as [A|A].
        * replace (Nat.leb s k && Nat.ltb k n)%bool with true by (symmetry; apply andb_true_iff; rewrite Nat.leb_le, Nat.ltb_lt; lia).
          rewrite filter_none. 2:{ destruct (existsb (run_has k) rs) eqn:X; auto. specialize (S6 k X). lia. }
          rewrite (S2 k) by lia. cbn [fst snd length]. destruct Req_EM_T; [contradiction|auto].
        * replace (Nat.leb s k && Nat.ltb k n)%bool with false by (symmetry; apply andb_false_iff; left; apply Nat.leb_gt; lia).
          cbn [length]. rewrite S5 by lia. destruct Req_EM_T; auto.
      + exfalso. destruct (Sep s n ltac:(lia) ltac:(lia)) as [D1 [D2 _]]. rewrite End, (S2 s) in D1, D2 by lia. cbn [fst snd] in D1, D2.
        rewrite !Rminus_0_l, !Rabs_Ropp in L. rewrite !Rminus_0_r in D1, D2. pose proof (Rabs_pos hl). pose proof (Rabs_pos h2l).
        destruct D1 as [D1|D1]; [|lra]. destruct D2 as [D2|D2]; [|lra]. congruence.
    - exists rs. auto.
  Qed.
End Line.
