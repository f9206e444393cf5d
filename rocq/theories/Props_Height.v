(** * Properties C47-C49, C71: height maps *)
From Coq Require Import ZArith NArith List Bool Lia Reals Lra.
From Flocq Require Import Core.
From Verif Require Import Num MathTypes Outcome Mesh Box Spec P_Tac P_Math P_Mesh P_MeshFilter P_MeshGeo P_Box P_Float  Props_Box HeightMap SpecHeight
  P_Height P_HeightMesh P_HeightAll.
Import ListNotations.
Local Open Scope R_scope.

Lemma small_sizes : forall mx my, small_grid mx my -> (N.of_nat mx <= 2 ^ 31)%N /\ (N.of_nat my <= 2 ^ 31)%N.
Proof.
  unfold small_grid. intros mx my H. set (a := N.of_nat mx) in *. set (b := N.of_nat my) in *.
  change (2 ^ 32)%N with (2 * 2 ^ 31)%N in H. set (P := (2 ^ 31)%N) in *.
  assert (12 * (a + 1) * 1 <= 12 * (a + 1) * (b + 1))%N by (apply N.mul_le_mono_l; lia).
  assert (12 * 1 * (b + 1) <= 12 * (a + 1) * (b + 1))%N by (apply N.mul_le_mono_r; lia). lia.
Qed.
Lemma pow_ret : forall size fuel j p, (j <= 31)%nat -> pow_size fuel (2 ^ N.of_nat j) size = Ret p ->
  exists k, p = (2 ^ N.of_nat k)%N /\ (size <= 2 ^ N.of_nat k)%N.
Proof.
  intros size fuel j p J E. destruct (N.le_gt_cases size (2 ^ 31)) as [L|L].
  - revert j J E. induction fuel as [|fuel IH]; intros j J E; [discriminate|]. cbn [pow_size] in E.
    destruct (N.ltb_spec (2 ^ N.of_nat j) size) as [A|A]; [|injection E as <-; eauto].
    destruct (Nat.eq_dec j 31) as [->|]; [change (N.of_nat 31) with 31%N in A; lia|].
    apply (IH (S j)); [lia|]. rewrite <- E. f_equal. unfold u32. rewrite Nnat.Nat2N.inj_succ, N.pow_succ_r'. rewrite N.mod_small; [apply N.mul_comm|].
    assert (2 ^ N.of_nat j <= 2 ^ 30)%N by (apply N.pow_le_mono_r; lia). change 4294967296%N with (2 ^ 30 * 4)%N. lia.
  - rewrite (pow_size_diverges size L (31 - j) j fuel) in E by lia. discriminate.
Qed.
Lemma pow_to_nat : forall k, N.to_nat (2 ^ N.of_nat k) = (2 ^ k)%nat.
Proof. induction k; auto. rewrite Nnat.Nat2N.inj_succ, N.pow_succ_r', Nnat.N2Nat.inj_mul, IHk. cbn [Nat.pow]. lia. Qed.
Lemma cell_outside : forall (g : list (list R)) my x y, s_rect g my -> ~ ((x < length g)%nat /\ (y < my)%nat) -> cell_at g x y = 0.
Proof.
  intros g my x y R N. unfold cell_at. destruct (le_lt_dec (length g) x); [rewrite nth_overflow with (l := g) by auto; destruct y; auto|].
  rewrite nth_overflow; auto. rewrite (R (nth x g [])) by (apply nth_In; auto). lia.
Qed.

(** what a returned height map consists of *)
Lemma from_grid_inv : forall fuel (g : list (list R)) my res hm, s_rect g my -> small_grid (length g) my -> from_grid fuel g res = Ret hm ->
  g <> [] /\ exists k pg m, (length g <= 2 ^ k)%nat /\ (my <= 2 ^ k)%nat /\ (forall x y, cell_at pg x y = cell_at g x y) /\
    quad_tree fuel pg 0 0 (2 ^ k) (2 ^ k) res = Ret (hm_root hm) /\
    filterOverlapping (grid_mesh g res (length g) my) = Ret m /\ s_mesh (hm_base hm) = m.
Proof.
  intros fuel g my res hm R SG H. unfold from_grid in H. destruct g as [|row0 g']; [discriminate|]. split; [discriminate|].
  set (g := row0 :: g') in *. assert (E0 : length row0 = my) by (apply R; left; auto). rewrite E0 in H.
  destruct (small_sizes _ _ SG) as [S1 S2].
  assert (U : forall n, (n <= 2 ^ 31)%N -> u32 n = n).
  { intros n L. unfold u32. apply N.mod_small. change 4294967296%N with (2 * 2 ^ 31)%N. lia. }
  rewrite !U in H by auto.
  apply bind_ret in H. destruct H as [p [P H]]. change 1%N with (2 ^ N.of_nat 0)%N in P. apply pow_ret in P; [|lia]. destruct P as [k [-> K]].
  rewrite pow_to_nat in H.
  assert (K1 : (length g <= 2 ^ k)%nat) by (rewrite <- pow_to_nat; lia). assert (K2 : (my <= 2 ^ k)%nat) by (rewrite <- pow_to_nat; lia).
  destruct (pow_grid_cell g my (2 ^ k) R K2) as [pg [PG PC]]. rewrite PG in H. cbn [obind] in H.
  apply bind_ret in H. destruct H as [root [Q H]]. apply bind_ret in H. destruct H as [m [F H]]. injection H as <-.
  exists k, pg, m. cbn [hm_root hm_base s_mesh]. auto 10.
Qed.
Lemma hm_ray_root : forall (h : hmap R) r t0 t1 d, hm_ray h r t0 t1 d = hnode_ray (hm_root h) r t0 t1 d.
Proof. intros [b [|bx occ c0 c1 c2 c3]] r t0 t1 d; reflexivity. Qed.

(** ** C47: a ray hits exactly when it hits the column of some cell of positive height.
    The size condition keeps the number of mesh vertices within unsigned int. *)
Theorem C47_hit : forall fuel (g : list (list R)) my res hm o d t0 t1 d0,
  s_rect g my -> (12 * (N.of_nat (length g) + 1) * (N.of_nat my + 1) <= 2 ^ 32)%N ->
  from_grid fuel g res = Ret hm -> 0 < res -> s_general_dir d -> t0 < t1 ->
  (fst (hm_ray hm (ray_make o d) t0 t1 d0) = true <->
   exists x y h, s_height g x y h /\ 0 < h /\ exists t, t0 < t < t1 /\ s_column res x y h (s_ray_at o (s_unit d) t)).
Proof.
  intros fuel g my res hm o d t0 t1 d0 R SG H RS D T. destruct (from_grid_inv fuel g my res hm R SG H) as [_ [k [pg [m [K1 [K2 [PC [Q _]]]]]]]].
  rewrite hm_ray_root. destruct (quad_ray pg res o d t0 t1 RS D T k fuel 0 0 (hm_root hm) Q d0) as [A _]. rewrite A. split.
  - intros [x [y [C [HP HT]]]]. rewrite PC in HP, HT. exists x, y, (cell_at g x y). split; [|auto]. apply (height_cell g my); auto.
    destruct (le_lt_dec (length g) x); [rewrite (cell_outside g my) in HP by (auto; lia); lra|].
    destruct (le_lt_dec my y); [rewrite (cell_outside g my) in HP by (auto; lia); lra|]. auto.
  - intros [x [y [h [HH [HP HT]]]]]. apply (height_cell g my) in HH; auto. destruct HH as [X [Y E]]. exists x, y. split; [unfold s_covers; lia|].
    unfold hits. rewrite PC, E. auto.
Qed.
(** every rectangular, non-empty grid of moderate size and extent is accepted *)
Theorem C47_returns : forall fuel (g : list (list R)) my res,
  g <> [] -> s_rect g my -> (12 * (N.of_nat (length g) + 1) * (N.of_nat my + 1) <= 2 ^ 32)%N -> (33 <= fuel)%nat ->
  (let fits v := Rabs (1000 * v) < 2147483648 in
   fits (res * INR (length g)) /\ fits (res * INR my) /\ forall x y h, s_height g x y h -> fits h) ->
  exists hm, from_grid fuel g res = Ret hm.
Proof.
  intros fuel g my res NE R SG F [F1 [F2 F3]]. unfold from_grid. destruct g as [|row0 g']; [congruence|]. set (g := row0 :: g') in *.
  assert (E0 : length row0 = my) by (apply R; left; auto). rewrite E0. destruct (small_sizes _ _ SG) as [S1 S2].
  assert (U : forall n, (n <= 2 ^ 31)%N -> u32 n = n).
  { intros n L. unfold u32. apply N.mod_small. change 4294967296%N with (2 * 2 ^ 31)%N. lia. }
  rewrite !U by auto. change 1%N with (2 ^ N.of_nat 0)%N.
  destruct (pow_size_ok (N.max (N.of_nat (length g)) (N.of_nat my)) ltac:(lia) 31 0 fuel eq_refl ltac:(lia)) as [k [-> [K KL]]]. cbn [obind].
  rewrite pow_to_nat. assert (K2 : (my <= 2 ^ k)%nat) by (rewrite <- pow_to_nat; lia).
  destruct (pow_grid_cell g my (2 ^ k) R K2) as [pg [-> PC]]. cbn [obind].
  destruct (quad_total k fuel pg 0 0 res ltac:(lia)) as [nd Q]. cbn [Nat.add] in Q. rewrite Q. cbn [obind].
  destruct (grid_mesh_any g res (length g) my SG) as [rs [Qs [G [_ [_ [L GP]]]]]].
  assert (SZ : (N.of_nat (length (m_points (grid_mesh g res (length g) my))) < 2 ^ 32)%N).
  { rewrite (proj1 G), qpts_len, app_length, map_length. lia. }
  pose proof (filter_spec _ SZ) as FS. destruct (filterOverlapping _) as [m| | |]; try contradiction; [cbn [obind]; eauto|]. exfalso.
  destruct FS as [[p [P N]]|FS]; [|rewrite (proj2 G) in FS; discriminate]. rewrite Forall_forall in GP. destruct (GP p P) as [i [j [h [I [J [HH ->]]]]]].
  assert (KS : forall v, Rabs (1000 * v) < 2147483648 -> toint (nofZ 1000 * v)%num <> None).
  { intros v V. unfold toint. cbn [ntrunc nmul nofZ NumR]. destruct (trunc_bounds (1000 * v)) as [[B1 B2] _].
    assert (B3 : Rabs (IZR (Ztrunc (1000 * v))) < 2147483648) by lra. apply Rabs_def2 in B3. destruct B3 as [B3 B4].
    apply lt_IZR in B3. apply (lt_IZR (-2147483648)) in B4.
    replace (Z.leb (-2147483648) _) with true by (symmetry; apply Z.leb_le; lia).
    replace (Z.leb _ 2147483647) with true by (symmetry; apply Z.leb_le; lia). discriminate. }
  assert (MONO : forall a b, (a <= b)%nat -> Rabs (1000 * (res * INR b)) < 2147483648 -> Rabs (1000 * (res * INR a)) < 2147483648).
  { intros a b AB B. rewrite <- Rmult_assoc in B |- *. rewrite Rabs_mult in B |- *. pose proof (le_INR _ _ AB). pose proof (pos_INR a). rewrite !(Rabs_right (INR _)) in * by lra.
    eapply Rle_lt_trans; [|exact B]. apply Rmult_le_compat_l; [apply Rabs_pos|lra]. }
  assert (HF : Rabs (1000 * h) < 2147483648).
  { destruct HH as [->|[x [y [X [Y E]]]]]; [rewrite Rmult_0_r, Rabs_R0; lra|]. apply (F3 x y). apply (height_cell g my); auto. }
  unfold vert_key in N. cbn [vx vy vz] in N.
  pose proof (KS _ (MONO _ _ I F1)) as N1. pose proof (KS _ (MONO _ _ J F2)) as N2. pose proof (KS _ HF) as N3.
  destruct (toint (nofZ 1000 * (res * INR i)%R)%num) as [a|]; [|congruence].
  destruct (toint (nofZ 1000 * (res * INR j)%R)%num) as [b|]; [|congruence].
  destruct (toint (nofZ 1000 * h)%num) as [c|]; [|congruence]. discriminate N.
Qed.
(** empty grids and rows shorter than the first one are undefined behaviour *)
Theorem C47_malformed : forall (T : Type) (NT : Num T) fuel (g : list (list T)) res, (33 <= fuel)%nat ->
  (N.of_nat (length g) <= 2 ^ 31)%N -> (forall row, In row g -> N.of_nat (length row) <= 2 ^ 31)%N ->
  (g = [] \/ exists row0 rest row, g = row0 :: rest /\ In row g /\ (length row < length row0)%nat) -> from_grid fuel g res = UB.
Proof.
  intros T NT fuel g res F S1 S2 [->|[row0 [rest [row [-> [I L]]]]]]; [reflexivity|]. unfold from_grid.
  assert (U : forall n, (n <= 2 ^ 31)%N -> u32 n = n).
  { intros n X. unfold u32. apply N.mod_small. change 4294967296%N with (2 * 2 ^ 31)%N. lia. }
  assert (S3 := S2 row0 (or_introl eq_refl)). rewrite !U by auto. change 1%N with (2 ^ N.of_nat 0)%N.
  destruct (pow_size_ok (N.max (N.of_nat (length (row0 :: rest))) (N.of_nat (length row0))) ltac:(lia) 31 0 fuel eq_refl ltac:(lia)) as [k [-> _]].
  cbn [obind]. unfold pow_grid. rewrite pow_rows_short; [reflexivity|]. exists row. auto.
Qed.
Theorem C47_default_never_hits : forall (T : Type) (NT : Num T) r t0 t1 (d : T), hm_ray hm_new r t0 t1 d = (false, d).
Proof. reflexivity. Qed.
Lemma copy_same : forall (T : Type) (n : hnode T), hnode_copy n = n.
Proof. induction n; cbn [hnode_copy]; congruence. Qed.
(** copies (and clones) answer every query as the original *)
Theorem C47_copy : forall (T : Type) (NT : Num T) (h : hmap T) r t0 t1 d,
  hm_ray (hm_copy h) r t0 t1 d = hm_ray h r t0 t1 d /\ hm_base (hm_copy h) = hm_base h.
Proof. intros T NT [b n] r t0 t1 d. unfold hm_copy. cbn [hm_base hm_root]. rewrite copy_same. auto. Qed.

(** ** C48 *)
(** the reported distance is where the ray enters some hit column *)
Theorem C48_some_column_partial : forall fuel (g : list (list R)) my res hm o d t0 t1 d0,
  s_rect g my -> (12 * (N.of_nat (length g) + 1) * (N.of_nat my + 1) <= 2 ^ 32)%N ->
  from_grid fuel g res = Ret hm -> 0 < res -> s_general_dir d -> t0 < t1 ->
  fst (hm_ray hm (ray_make o d) t0 t1 d0) = true ->
  let dist := snd (hm_ray hm (ray_make o d) t0 t1 d0) in
  exists x y h, s_height g x y h /\ 0 < h /\ (exists t, t0 < t < t1 /\ s_column res x y h (s_ray_at o (s_unit d) t)) /\
    s_column res x y h (s_ray_at o (s_unit d) dist) /\ forall t, s_column res x y h (s_ray_at o (s_unit d) t) -> dist <= t.
Proof.
  intros fuel g my res hm o d t0 t1 d0 R SG H RS D T HIT dist. destruct (from_grid_inv fuel g my res hm R SG H) as [_ [k [pg [m [K1 [K2 [PC [Q _]]]]]]]].
  unfold dist in *. rewrite hm_ray_root in *. destruct (quad_ray pg res o d t0 t1 RS D T k fuel 0 0 (hm_root hm) Q d0) as [_ A].
  destruct (A HIT) as [x [y [C [[HP HT] [E1 E2]]]]]. rewrite PC in *. exists x, y, (cell_at g x y).
  assert (HH : s_height g x y (cell_at g x y)).
  { apply (height_cell g my); auto.
    destruct (le_lt_dec (length g) x); [rewrite (cell_outside g my) in HP by (auto; lia); lra|].
    destruct (le_lt_dec my y); [rewrite (cell_outside g my) in HP by (auto; lia); lra|]. auto. }
  auto 10.
Qed.
(** rays starting inside a column (not on its side faces) report that column, and it is the nearest one *)
Theorem C48_inside_partial : forall fuel (g : list (list R)) my res hm o d t0 t1 d0 x y h,
  s_rect g my -> (12 * (N.of_nat (length g) + 1) * (N.of_nat my + 1) <= 2 ^ 32)%N ->
  from_grid fuel g res = Ret hm -> 0 < res -> s_general_dir d -> 0 <= t0 < t1 ->
  s_height g x y h -> 0 < h -> INR x * res < vx o < (INR x + 1) * res -> INR y * res < vy o < (INR y + 1) * res -> 0 <= vz o <= h ->
  (exists t, t0 < t < t1 /\ s_column res x y h (s_ray_at o (s_unit d) t)) ->
  let (hit, dist) := hm_ray hm (ray_make o d) t0 t1 d0 in
  hit = true /\ s_column res x y h (s_ray_at o (s_unit d) dist) /\
  forall x' y' h' t, s_height g x' y' h' -> 0 < h' -> (exists t', t0 < t' < t1 /\ s_column res x' y' h' (s_ray_at o (s_unit d) t')) ->
    s_column res x' y' h' (s_ray_at o (s_unit d) t) -> dist <= t.
Proof.
  intros fuel g my res hm o d t0 t1 d0 x y h R SG H RS D T HH HP IX IY IZ HT.
  destruct (from_grid_inv fuel g my res hm R SG H) as [_ [k [pg [m [K1 [K2 [PC [Q _]]]]]]]].
  apply (height_cell g my) in HH; auto. destruct HH as [X [Y E]]. rewrite hm_ray_root.
  assert (HI : hits pg res o d t0 t1 x y) by (unfold hits; rewrite PC, E; auto).
  assert (IZ' : 0 <= vz o <= cell_at pg x y) by (rewrite PC, E; auto).
  destruct (quad_inside pg res o d t0 t1 RS D ltac:(lra) x y IX IY IZ' HI k fuel 0 0 (hm_root hm) Q ltac:(unfold s_covers; lia) d0) as [A B].
  destruct (hnode_ray _ _ _ _ _) as [hit dist]. cbn [fst snd] in *. split; auto. pose proof B as B'. destruct B' as [B1 B2]. rewrite PC, E in B1. split; auto.
  intros x' y' h' t HH' HP' HT' CT. apply (height_cell g my) in HH'; auto. destruct HH' as [X' [Y' E']].
  assert (HI' : hits pg res o d t0 t1 x' y') by (unfold hits; rewrite PC, E'; auto).
  (* entry of the other column *)
  assert (EN : exists e, entry pg res o d x' y' e).
  { unfold entry. rewrite PC, E'.
    assert (O : s_ordered (V3 (INR x' * res) (INR y' * res) 0) (V3 ((INR x' + 1) * res) ((INR y' + 1) * res) h')).
    { unfold s_ordered. cbn [vx vy vz]. repeat split; try lra; apply Rmult_le_compat_r; lra. }
    destruct (ray_box_slabs (box_make (V3 (INR x' * res) (INR y' * res) 0) (V3 ((INR x' + 1) * res) ((INR y' + 1) * res) h')) o d O D) as [lo [hi [IB _]]].
    cbn [box_make b_min b_max] in IB. unfold s_in_box in IB. cbn [vx vy vz] in IB.
    exists lo. unfold s_column. cbn [vx vy vz]. split.
    - destruct HT' as [t' [_ HT']]. pose proof (proj1 (IB t') HT'). apply IB. lra.
    - intros t2 H2. pose proof (proj1 (IB t2) H2). lra. }
  destruct EN as [e EN]. assert (DE : dist <= e) by (eapply (inside_nearest pg res o d t0 t1 RS x y IX IY IZ' HI (proj1 T)); eauto).
  assert (e <= t) by (apply EN; rewrite PC, E'; auto). lra.
Qed.

(** a ray that reaches cell (1,0) after 1 m and cell (0,0) after 2 m is reported to hit at 2 m *)
Theorem C48_nearest_refuted :
  let r := ray_make (V3 (fz 3) (nlit 3 10) (nlit 4 10)) (V3 (fz (-1)) (nlit 1 100) (nlit 1 100)) in
  exists hm dist x, from_grid 40 [[fz 1]; [fz 1]] (fz 1) = Ret hm /\ hm_ray hm r (fz 0) (fz 10) (fz 0) = (true, dist) /\
    box_ray (box_make (V3 (fz 1) (fz 0) (fz 0)) (V3 (fz 2) (fz 1) (fz 1))) r (fz 0) (fz 10) (fz 0) = (true, x) /\
    nltb x (nlit 11 10) = true /\ nltb (nlit 19 10) dist = true.
Proof.
  intros r. destruct (oret_ex _ (from_grid 40 [[fz 1]; [fz 1]] (fz 1)) (fun hm => hit_chk (hm_ray hm r (fz 0) (fz 10) (fz 0))
    (fun dist => hit_chk (box_ray (box_make (V3 (fz 1) (fz 0) (fz 0)) (V3 (fz 2) (fz 1) (fz 1))) r (fz 0) (fz 10) (fz 0))
      (fun x => nltb x (nlit 11 10) && nltb (nlit 19 10) dist)))) as [hm [N C]]; [vm_compute; reflexivity|].
  apply hit_ex in C. destruct C as [dist [H C]]. apply hit_ex in C. destruct C as [x [B C]]. apply andb_prop in C. destruct C as [C1 C2].
  exact (ex_intro _ hm (ex_intro _ dist (ex_intro _ x (conj N (conj H (conj B (conj C1 C2))))))).
Qed.

(** ** C49, C71: the surface *)
Lemma tops_spec : forall (g : list (list R)) my rs, s_rect g my -> Forall (rect_ok g (length g) my) rs ->
  (forall x y, (x < length g)%nat -> (y < my)%nat -> 0 < cell_at g x y -> exists r, In r rs /\ rect_has x y r) ->
  s_tops g (length g) my (1 / 10 ^ 10) rs.
Proof.
  intros g my rs R RO C. split.
  - intros x0 y0 x1 y1 h I. rewrite Forall_forall in RO. destruct (RO _ I) as [X [Y [P [E CL]]]]. repeat split; try lia; auto.
    + apply (height_cell g my); auto. split; [lia|]. split; [lia|auto].
    + intros x y CV. exists (cell_at g x y). split; [|apply CL; auto]. apply (height_cell g my); auto. unfold s_covers in CV. split; [lia|]. split; [lia|auto].
  - intros x y h HH P. apply (height_cell g my) in HH; auto. destruct HH as [X [Y E]]. rewrite <- E in P. destruct (C x y X Y P) as [[[[[x0 y0] x1] y1] h'] [I HA]].
    exists x0, y0, x1, y1, h'. auto.
Qed.
Lemma near_key : forall p q : vec3 R, vert_key p = vert_key q -> vert_key p <> None -> s_near p q.
Proof.
  intros p q E N. destruct (vert_key p) as [[[a b] c]|] eqn:K; [|congruence]. symmetry in E. apply vert_key_R in K, E.
  destruct K as [[K1 _] [[K2 _] [K3 _]]], E as [[E1 _] [[E2 _] [E3 _]]].
  split; [|split]; eapply cell_close; eauto.
Qed.
Lemma rep_in : forall (pts : list (vec3 R)) p, In p pts -> exists q, rep pts p = Some q /\ In q pts /\ vert_key p = vert_key q.
Proof.
  intros pts p I. unfold rep. destruct (find _ pts) as [q|] eqn:F.
  - exists q. split; auto. apply find_some in F. destruct F as [F1 F2]. apply keyb_eq in F2. auto.
  - exfalso. apply find_none with (x := p) in F; auto. rewrite keyb_refl in F. discriminate.
Qed.
Lemma soup_pts : forall (pts : list (vec3 R)) ts l, s_soup pts ts = Some l -> forall a b c, In (a, b, c) l -> In a pts /\ In b pts /\ In c pts.
Proof. intros pts ts l S a b c I. eapply soup_in; eauto. Qed.

(** every cell of positive height is covered by a top rectangle of its height, top rectangles cover nothing else; the mesh of
    the height map consists of these rectangles (and others) with corners moved by less than 2 mm by the vertex merging *)
Theorem C49_tops_partial : forall fuel (g : list (list R)) my res hm,
  s_rect g my -> (12 * (N.of_nat (length g) + 1) * (N.of_nat my + 1) <= 2 ^ 32)%N -> from_grid fuel g res = Ret hm ->
  exists rs l rest, s_tops g (length g) my (1 / 10 ^ 10) rs /\
    s_soup (m_points (s_mesh (hm_base hm))) (map idx (m_tris (s_mesh (hm_base hm)))) = Some (l ++ rest) /\
    Forall2 s_near3 (flat_map (fun '(x0, y0, x1, y1, h) => s_top res x0 y0 x1 y1 h) rs) l.
Proof.
  intros fuel g my res hm R SG H. destruct (from_grid_inv fuel g my res hm R SG H) as [_ [k [pg [m [_ [_ [_ [_ [F ->]]]]]]]]].
  destruct (grid_mesh_any g res (length g) my SG) as [rs [Q [[G1 G2] [RO [C [L _]]]]]].
  assert (SZ : (N.of_nat (length (m_points (grid_mesh g res (length g) my))) < 2 ^ 32)%N).
  { rewrite G1, qpts_len, app_length, map_length. unfold small_grid in *. lia. }
  pose proof (filter_spec _ SZ) as FS. rewrite F in FS. destruct FS as [F1 [_ [_ [l [FL FL']]]]]. rewrite G2 in FL. injection FL as <-.
  rewrite flat_map_app, flat_map_map in FL', G2. rewrite map_app in FL'. eexists rs, _, _. split; [apply tops_spec; auto|]. split; [exact FL'|].
  assert (E : flat_map (fun '(x0, y0, x1, y1, h) => s_top res x0 y0 x1 y1 h) rs = flat_map (fun r => qtris (rect_quad res r)) rs).
  { apply flat_map_ext. intros r. rewrite rect_tris. destruct r as [[[[x0 y0] x1] y1] h]. reflexivity. }
  rewrite E.
  assert (I : forall t, In t (flat_map (fun r => qtris (rect_quad res r)) rs) -> s_near3 t (rep3 (m_points (grid_mesh g res (length g) my)) t)).
  { intros [[a b] c] I. destruct (soup_pts _ _ _ G2 a b c) as [A [B C']]; [apply in_app_iff; auto|]. unfold rep3, s_near3.
    destruct (rep_in _ _ A) as [a' [-> [A1 A2]]]. destruct (rep_in _ _ B) as [b' [-> [B1 B2]]]. destruct (rep_in _ _ C') as [c' [-> [C1 C2]]].
    split; [|split]; apply near_key; auto. }
  clear -I. induction (flat_map (fun r => qtris (rect_quad res r)) rs) as [|t ts IH]; cbn [map]; constructor.
  - apply I. left. auto.
  - apply IH. intros t' T. apply I. right. auto.
Qed.

Lemma coarse_separated : forall g, s_coarse g -> s_separated g.
Proof. intros g C a b A B. destruct (C a b A B); auto. right. lra. Qed.
Lemma key_exact : forall g my res p q, s_rect g my -> s_coarse g -> 1 / 1000 <= res ->
  grid_pt g res (length g) my p -> grid_pt g res (length g) my q -> vert_key p = vert_key q -> vert_key p <> None -> p = q.
Proof.
  intros g my res p q R CO RS [i [j [h [I [J [HH ->]]]]]] [i' [j' [h' [I' [J' [HH' ->]]]]]] E N.
  destruct (vert_key _) as [[[a b] c]|] eqn:K in E; [|congruence]. symmetry in E. apply vert_key_R in K, E. cbn [vx vy vz] in K, E.
  destruct K as [[K1 _] [[K2 _] [K3 _]]], E as [[E1 _] [[E2 _] [E3 _]]].
  assert (PI : forall n n' z, mm_cell (res * INR n) z -> mm_cell (res * INR n') z -> n = n').
  { intros n n' z [[A1 A2] _] [[B1 B2] _]. pose proof (pos_INR n). pose proof (pos_INR n').
    assert (0 <= res * INR n) by (apply Rmult_le_pos; lra). assert (0 <= res * INR n') by (apply Rmult_le_pos; lra).
    rewrite (Rabs_right (1000 * _)) in A1, A2 by lra. rewrite (Rabs_right (1000 * _)) in B1, B2 by lra.
    assert (UP : forall u v, (u < v)%nat -> res * INR u + 1 / 1000 <= res * INR v).
    { intros u v L. assert (G : INR u + 1 <= INR v) by (rewrite <- S_INR; apply le_INR; lia).
      apply (Rmult_le_compat_l res) in G; lra. }
    destruct (lt_eq_lt_dec n n') as [[L|]|L]; auto; exfalso; apply UP in L; lra. }
  rewrite (PI _ _ _ K1 E1), (PI _ _ _ K2 E2). f_equal.
  assert (HS : forall h, (h = 0 \/ exists x y, (x < length g)%nat /\ (y < my)%nat /\ cell_at g x y = h) -> h = 0 \/ exists x y, s_height g x y h).
  { intros h0 [->|[x [y [X [Y Z]]]]]; [auto|]. right. exists x, y. apply (height_cell g my); auto. }
  destruct (CO h h' (HS _ HH) (HS _ HH')) as [|D]; auto. destruct (cell_close _ _ _ K3 E3). lra.
Qed.

(** the exact surface when the resolution is at least a millimetre and different heights differ by at least two millimetres:
    top rectangles as above and, on both axes, walls covering every edge between cells of different height exactly once *)
Theorem C71_surface : forall fuel (g : list (list R)) my res hm,
  s_rect g my -> (12 * (N.of_nat (length g) + 1) * (N.of_nat my + 1) <= 2 ^ 32)%N -> 1 / 1000 <= res -> s_coarse g ->
  from_grid fuel g res = Ret hm ->
  exists rs Wx Wy, s_tops g (length g) my 0 rs /\
    s_walls (fun i k => (s_hz g (Z.of_nat i) (Z.of_nat k), s_hz g (Z.of_nat i - 1) (Z.of_nat k))) (length g) my Wx /\
    s_walls (fun i k => (s_hz g (Z.of_nat k) (Z.of_nat i), s_hz g (Z.of_nat k) (Z.of_nat i - 1))) my (length g) Wy /\
    s_soup (m_points (s_mesh (hm_base hm))) (map idx (m_tris (s_mesh (hm_base hm)))) =
      Some (flat_map (fun '(x0, y0, x1, y1, h) => s_top res x0 y0 x1 y1 h) rs ++
            flat_map (fun '(i, s, e, h, h2) => s_wall_x res i s e h h2) Wx ++ flat_map (fun '(i, s, e, h, h2) => s_wall_y res i s e h h2) Wy).
Proof.
  intros fuel g my res hm R SG RS CO H. destruct (from_grid_inv fuel g my res hm R SG H) as [_ [k [pg [m [_ [_ [_ [_ [F ->]]]]]]]]].
  destruct (grid_mesh_any g res (length g) my SG) as [rs0 [Q0 [G0 [_ [_ [L GP]]]]]].
  assert (SZ : (N.of_nat (length (m_points (grid_mesh g res (length g) my))) < 2 ^ 32)%N).
  { rewrite (proj1 G0), qpts_len, app_length, map_length. unfold small_grid in *. lia. }
  destruct (grid_mesh_sep g my res R (coarse_separated g CO) SG) as [rs [Wx [Wy [[G1 G2] [RO [C [WX WY]]]]]]].
  exists rs, Wx, Wy. split.
  { destruct (tops_spec g my rs R RO C) as [T1 T2]. split; [|auto]. intros x0 y0 x1 y1 h I. destruct (T1 x0 y0 x1 y1 h I) as [A [B [P [HH X]]]].
    repeat split; try lia; auto. intros x y CV. destruct (X x y CV) as [h' [H1 H2]]. exists h'. split; auto.
    destruct (CO h' h (or_intror (ex_intro _ x (ex_intro _ y H1))) (or_intror (ex_intro _ x0 (ex_intro _ y0 HH)))) as [->|D]; [|lra].
    replace (h - h) with 0 by ring. rewrite Rabs_R0. lra. }
  split; [exact WX|]. split; [exact WY|].
  pose proof (filter_spec _ SZ) as FS. rewrite F in FS. destruct FS as [F1 [_ [_ [l [FL FL']]]]]. rewrite G2 in FL. injection FL as <-.
  rewrite FL'. f_equal. rewrite !flat_map_app, !flat_map_map in *.
  assert (ID : forall t, In t (flat_map (fun r => qtris (rect_quad res r)) rs ++ flat_map (fun w => qtris (wq (wall_x_quad res) w)) Wx ++
      flat_map (fun w => qtris (wq (wall_y_quad res) w)) Wy) -> rep3 (m_points (grid_mesh g res (length g) my)) t = t).
  { intros [[a b] c] I. destruct (soup_pts _ _ _ G2 a b c I) as [A [B C']]. unfold rep3.
    rewrite Forall_forall in GP.
    assert (X : forall p, In p (m_points (grid_mesh g res (length g) my)) -> match rep (m_points (grid_mesh g res (length g) my)) p with Some q => q | None => p end = p).
    { intros p P. destruct (rep_in _ _ P) as [q [-> [P1 P2]]]. symmetry. eapply (key_exact g my res); eauto. }
    rewrite !X by auto. reflexivity. }
  rewrite (map_ext_in _ (fun t => t) _ ID), map_id. f_equal; [|f_equal]; apply flat_map_ext; intros w.
  - rewrite rect_tris. destruct w as [[[[x0 y0] x1] y1] h]. reflexivity.
  - rewrite wallx_tris. destruct w as [[[[x0 y0] x1] y1] h]. reflexivity.
  - rewrite wally_tris. destruct w as [[[[x0 y0] x1] y1] h]. reflexivity.
Qed.

(** "no cell is covered twice" fails: cell (1,1) of this grid is covered by the top rectangles [0,2]x[1,2] and [1,2]x[0,2] *)
Definition fv (x y z : Z) : vec3 F64 := V3 (fz x) (fz y) (fz z).
Definition vec_eqb (a b : vec3 F64) : bool := feqb (vx a) (vx b) && feqb (vy a) (vy b) && feqb (vz a) (vz b).
Lemma vec_eqb_eq : forall a b, vec_eqb a b = true -> a = b.
Proof.
  intros a b H. apply andb_prop in H. destruct H as [H H3]. apply andb_prop in H. destruct H as [H1 H2].
  destruct a as [a1 a2 a3], b as [b1 b2 b3]. cbn [vx vy vz] in *. rewrite (feqb_eq _ _ H1), (feqb_eq _ _ H2), (feqb_eq _ _ H3). reflexivity.
Qed.
Definition has_tri (l : list (vec3 F64 * vec3 F64 * vec3 F64)) (t : vec3 F64 * vec3 F64 * vec3 F64) : bool :=
  existsb (fun u => let '(a, b, c) := u in let '(a', b', c') := t in vec_eqb a a' && vec_eqb b b' && vec_eqb c c') l.
Lemma has_tri_in : forall l t, has_tri l t = true -> In t l.
Proof.
  intros l [[a' b'] c'] H. apply existsb_exists in H. destruct H as [[[a b] c] [I H]]. apply andb_prop in H. destruct H as [H H3].
  apply andb_prop in H. destruct H as [H1 H2]. rewrite <- (vec_eqb_eq _ _ H1), <- (vec_eqb_eq _ _ H2), <- (vec_eqb_eq _ _ H3). exact I.
Qed.
Theorem C49_overlap_refuted : exists hm l, from_grid 40 [[fz 5; fz 1]; [fz 1; fz 1]] (fz 1) = Ret hm /\
  s_soup (m_points (s_mesh (hm_base hm))) (map idx (m_tris (s_mesh (hm_base hm)))) = Some l /\
  (In (fv 0 1 1, fv 2 1 1, fv 0 2 1) l /\ In (fv 2 1 1, fv 2 2 1, fv 0 2 1) l) /\
  In (fv 1 0 1, fv 2 0 1, fv 1 2 1) l /\ In (fv 2 0 1, fv 2 2 1, fv 1 2 1) l.
Proof.
  destruct (oret_ex _ (from_grid 40 [[fz 5; fz 1]; [fz 1; fz 1]] (fz 1)) (fun hm =>
    some_chk (s_soup (m_points (s_mesh (hm_base hm))) (map idx (m_tris (s_mesh (hm_base hm))))) (fun l =>
      (has_tri l (fv 0 1 1, fv 2 1 1, fv 0 2 1) && has_tri l (fv 2 1 1, fv 2 2 1, fv 0 2 1)) &&
      (has_tri l (fv 1 0 1, fv 2 0 1, fv 1 2 1) && has_tri l (fv 2 0 1, fv 2 2 1, fv 1 2 1))))) as [hm [N C]]; [vm_compute; reflexivity|].
  apply some_ex in C. destruct C as [l [S C]]. apply andb_prop in C. destruct C as [C1 C2]. apply andb_prop in C1, C2. destruct C1 as [C1 C3], C2 as [C2 C4].
  exact (ex_intro _ hm (ex_intro _ l (conj N (conj S (conj (conj (has_tri_in _ _ C1) (has_tri_in _ _ C3)) (conj (has_tri_in _ _ C2) (has_tri_in _ _ C4))))))).
Qed.

(** ** A concrete case *)
Definition ex_grid : list (list R) := [[1; 2; 2]; [0; 2; 1]].
Lemma ex_rect : s_rect ex_grid 3. Proof. intros row [<-|[<-|[]]]; reflexivity. Qed.
Lemma ex_small : (12 * (N.of_nat (length ex_grid) + 1) * (N.of_nat 3 + 1) <= 2 ^ 32)%N. Proof. vm_compute. discriminate. Qed.
Lemma ex_heights : forall x y h, s_height ex_grid x y h -> h = 0 \/ h = 1 \/ h = 2.
Proof.
  intros x y h [row [A B]]. destruct x as [|[|[|x]]]; cbn in A; try discriminate; injection A as <-;
    (destruct y as [|[|[|[|y]]]]; cbn in B; try discriminate; injection B as <-; auto).
Qed.
Lemma ex_coarse : s_coarse ex_grid.
Proof.
  intros a b A B. assert (X : forall h, h = 0 \/ (exists x y, s_height ex_grid x y h) -> h = 0 \/ h = 1 \/ h = 2).
  { intros h [H|[x [y H]]]; auto. apply ex_heights in H. auto. }
  destruct (X a A) as [-> | [-> | ->]], (X b B) as [-> | [-> | ->]]; auto; right; unfold Rabs; destruct (Rcase_abs _); lra.
Qed.
Example C47_nonvacuous : exists hm, from_grid 33 ex_grid (1/2) = Ret hm /\
  let o := V3 (1/4) (3/4) (1/2) in let d := V3 1 1 1 in
  s_general_dir d /\ s_height ex_grid 0 1 2 /\ s_column (1/2) 0 1 2 (s_ray_at o (s_unit d) 0) /\
  fst (hm_ray hm (ray_make o d) 0 1 0) = true /\ fst (hm_ray hm (ray_make o (V3 (-1) 1 (-1))) 2 3 0) = false.
Proof.
  destruct (C47_returns 33 ex_grid 3 (1/2) ltac:(discriminate) ex_rect ex_small (le_n _)) as [hm H].
  { unfold ex_grid. cbn [length INR]. split; [rewrite Rabs_right; lra|]. split; [rewrite Rabs_right; lra|].
    intros x y h HH. apply ex_heights in HH. rewrite Rabs_right; lra. }
  exists hm. split; auto. intros o d.
  assert (SQ : forall k, k * k = 3 -> 0 < k -> sqrt 3 = k) by (intros k K KP; rewrite <- K; apply sqrt_square; lra).
  assert (Q1 : 0 < sqrt 3) by (apply sqrt_lt_R0; lra). assert (Q2 : sqrt 3 * sqrt 3 = 3) by (apply sqrt_sqrt; lra).
  assert (Q3 : 1 < sqrt 3 < 2) by (split; nra). set (k := sqrt 3) in *.
  assert (U : s_unit d = V3 (1 / k) (1 / k) (1 / k)).
  { assert (NN : s_norm d = k) by (unfold s_norm, s_dot, d; cbn [vx vy vz]; unfold k; f_equal; lra). unfold s_unit. rewrite NN. reflexivity. }
  assert (U2 : s_unit (V3 (-1) 1 (-1)) = V3 (-1 / k) (1 / k) (-1 / k)).
  { assert (NN : s_norm (V3 (-1) 1 (-1)) = k) by (unfold s_norm, s_dot, d; cbn [vx vy vz]; unfold k; f_equal; lra). unfold s_unit. rewrite NN. reflexivity. }
  assert (I1 : 1/2 < 1 / k < 1) by (split; apply (Rmult_lt_reg_r k); try lra; unfold Rdiv; rewrite ?Rmult_1_l, ?Rinv_l by lra; lra).
  assert (I2 : -1 / k = - (1 / k)) by (unfold Rdiv; ring).
  assert (D : s_general_dir d). { unfold s_general_dir. rewrite U. cbn [vx vy vz]. rewrite !Rabs_right; lra. }
  assert (D2 : s_general_dir (V3 (-1) 1 (-1))). { unfold s_general_dir. rewrite U2. cbn [vx vy vz]. rewrite I2, Rabs_Ropp, !Rabs_right; lra. }
  assert (HH : s_height ex_grid 0 1 2) by (exists [1; 2; 2]; auto).
  split; auto. split; auto.
  assert (CO : forall t, 0 <= t <= 1/4 -> s_column (1/2) 0 1 2 (s_ray_at o (s_unit d) t)).
  { intros t HT. rewrite U. unfold s_column, s_ray_at, o. cbn [vx vy vz INR]. assert (0 <= t * (1 / k) <= 1/4) by (split; nra). lra. }
  split; [apply CO; lra|]. split.
  - apply (C47_hit 33 ex_grid 3 (1/2) hm o d 0 1 0 ex_rect ex_small H ltac:(lra) D ltac:(lra)). exists 0%nat, 1%nat, 2. split; auto. split; [lra|].
    exists (1/8). split; [lra|]. apply CO. lra.
  - destruct (fst _) eqn:E; auto. exfalso.
    apply (C47_hit 33 ex_grid 3 (1/2) hm o _ 2 3 0 ex_rect ex_small H ltac:(lra) D2 ltac:(lra)) in E. destruct E as [x [y [h [_ [_ [t [T [[X _] _]]]]]]]].
    rewrite U2 in X. unfold s_ray_at, o in X. cbn [vx vy vz] in X. rewrite I2 in X. pose proof (pos_INR x). nra.
Qed.
Example C71_nonvacuous : exists hm, from_grid 33 ex_grid (1/2) = Ret hm /\ s_rect ex_grid 3 /\ s_coarse ex_grid.
Proof. destruct C47_nonvacuous as [hm [H _]]. exists hm. split; auto. split; [apply ex_rect|apply ex_coarse]. Qed.

Print Assumptions C47_hit.
Print Assumptions C47_returns.
Print Assumptions C47_malformed.
Print Assumptions C47_copy.
Print Assumptions C48_some_column_partial.
Print Assumptions C48_inside_partial.
Print Assumptions C48_nearest_refuted.
Print Assumptions C49_tops_partial.
Print Assumptions C49_overlap_refuted.
Print Assumptions C71_surface.
