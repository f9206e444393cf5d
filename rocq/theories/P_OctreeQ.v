(** Octrees over the reals: queries at the level of the API. *)
From Coq Require Import ZArith NArith List Bool Lia Reals Lra Psatz Arith.
From Verif Require Import Num MathTypes Outcome Mesh Box Composite Octree Spec SpecOctree NumOrd P_Tac P_Math P_Box P_BoxMesh P_Composite P_Octree P_OctreeRay P_OctreeRun.
Import ListNotations.
Local Open Scope R_scope.

(** ** intersect(Box) *)
Definition rng1 (s : R) (k : nat) (z : Z) (lo hi : R) : Prop :=
  (z = 0%Z \/ IZR z * s_side s k < hi) /\ (z = (2 ^ Z.of_nat k - 1)%Z \/ lo <= (IZR z + 1) * s_side s k).
Lemma in_range01 : forall b s e, In b (range01 s e) <-> if b then e = true else s = false.
Proof. intros [] [] []; cbn; intuition congruence. Qed.
Lemma rng_step : forall s (b : bool) r lo hi, 0 < s ->
  rng1 s (S (length r)) (zval (b :: r)) lo hi <->
  (if b then s/2 < hi else lo <= s/2) /\ rng1 (s/2) (length r) (zval r) (lo - s/2 * (if b then 1 else 0)) (hi - s/2 * (if b then 1 else 0)).
Proof.
  intros s b r lo hi P. unfold rng1. cbn [zval]. rewrite side_half'. set (e := s_side (s/2) (length r)).
  pose proof (zval_range r) as [Z0 Z1]. assert (EP : 0 < e) by (apply side_pos; lra).
  assert (PW : e * IZR (2 ^ Z.of_nat (length r)) = s/2) by (rewrite pow2_IZR; apply side_pow).
  rewrite Nat2Z.inj_succ, Z.pow_succ_r by lia. set (w := (2 ^ Z.of_nat (length r))%Z) in *.
  apply IZR_le in Z0. pose proof (IZR_lt _ _ Z1) as Z1'. destruct b; rewrite ?plus_IZR.
  - split.
    + intros [[A|A] B]; [exfalso; apply eq_IZR in Z0 || (apply (f_equal IZR) in A; rewrite plus_IZR in A; lra)|].
      split; [nra|]. split; [right; nra|]. destruct B as [B|B]; [left; lia|right; nra].
    + intros [A [B C]]. split; [right; destruct B as [->|B]; nra|]. destruct C as [C|C]; [left; lia|right; nra].
  - rewrite Z.add_0_l. rewrite !Rmult_0_r, !Rminus_0_r. split.
    + intros [A B]. assert (L : lo <= (IZR (zval r) + 1) * e) by (destruct B as [B|B]; [lia|lra]).
      assert (IZR (zval r) + 1 <= IZR w) by (rewrite <- plus_IZR; apply IZR_le; lia).
      split; [nra|]. split; [destruct A as [A|A]; [left; auto|right; lra]|right; lra].
    + intros [A [B C]]. split; [destruct B as [B|B]; [left; auto|right; lra]|]. right. destruct C as [C|C]; [|lra].
      rewrite C, minus_IZR. nra.
Qed.
Definition rng3 (s : R) (path : list step) (mn mx : vec3 R) : Prop :=
  rng1 s (length path) (zval (ax px path)) (vx mn) (vx mx) /\ rng1 s (length path) (zval (ax py path)) (vy mn) (vy mx) /\
  rng1 s (length path) (zval (ax pz path)) (vz mn) (vz mx).
Lemma rng3_nil : forall s mn mx, rng3 s [] mn mx.
Proof. intros. unfold rng3, rng1. cbn. repeat split; left; reflexivity. Qed.
Lemma rng3_step : forall s x y z r mn mx, 0 < s ->
  rng3 s ((x, y, z) :: r) mn mx <->
  ((if x then s/2 < vx mx else vx mn <= s/2) /\ (if y then s/2 < vy mx else vy mn <= s/2) /\ (if z then s/2 < vz mx else vz mn <= s/2)) /\
  rng3 (s/2) r (vsub mn (shift z0 s x y z)) (vsub mx (shift z0 s x y z)).
Proof.
  intros s x y z r mn mx P. unfold rng3. cbn [length ax map px py pz fst snd]. fold (ax px r) (ax py r) (ax pz r).
  assert (K : forall f lo hi b, rng1 s (S (length r)) (zval (b :: ax f r)) lo hi <->
    (if b then s/2 < hi else lo <= s/2) /\ rng1 (s/2) (length r) (zval (ax f r)) (lo - s/2 * (if b then 1 else 0)) (hi - s/2 * (if b then 1 else 0))).
  { intros f lo hi b. rewrite <- (ax_len f r) at 1 2. apply rng_step; auto. }
  rewrite !K. unfold shift, z0. cbn [vsub vadd vx vy vz nadd nsub NumR]. rewrite !Rplus_0_l. tauto.
Qed.

Lemma node_box_spec : forall n s mn mx, 0 < s -> sized s n ->
  (node_box n mn mx = true <-> exists path, listed n path /\ rng3 s path mn mx).
Proof.
  induction n as [|s' sp o ch IH]; intros s mn mx P Z; [cbn; split; [discriminate|intros [? [[] _]]]|].
  destruct Z as [-> [-> Z]]. cbn [node_box]. destruct o.
  - split; auto. intros _. exists []. split; [reflexivity|apply rng3_nil].
  - assert (IN : forall b (lo hi : R), In b (range01 (nltb (s/2) lo) (nltb (s/2) hi)) <-> if b then s/2 < hi else lo <= s/2).
    { intros b lo hi. rewrite in_range01. cbn [nltb NumR]. destruct b; [apply Rltb_true|apply Rltb_false]. }
    assert (SH : forall x y z v, vsub v (V3 (nmul (s/2) (b2n x)) (nmul (s/2) (b2n y)) (nmul (s/2) (b2n z))) = vsub v (shift z0 s x y z)).
    { intros [] [] [] v; f_equal; unfold shift, z0, b2n; apply V3_eq; unmath; ring. }
    split.
    + intros H. apply existsb_exists in H. destruct H as [x [X H]]. apply existsb_exists in H. destruct H as [y [Y H]].
      apply existsb_exists in H. destruct H as [z [W H]]. rewrite !SH in H. apply (IH x y z (s/2)) in H; [|lra|auto]. destruct H as [r [L R]].
      exists ((x, y, z) :: r). split; [cbn; auto|]. apply rng3_step; auto. split; auto. split; [|split]; apply IN; auto.
    + intros [[|[[x y] z] r] [L R]]; [discriminate|]. destruct L as [_ L]. apply rng3_step in R; auto. destruct R as [[X [Y W]] R].
      apply existsb_exists. exists x. split; [apply IN; auto|]. apply existsb_exists. exists y. split; [apply IN; auto|].
      apply existsb_exists. exists z. split; [apply IN; auto|]. rewrite !SH. apply (IH x y z (s/2)); [lra|auto|]. eauto.
Qed.

Lemma box_axis : forall S k z lo hi, 0 < S -> (0 <= z < 2 ^ Z.of_nat k)%Z -> lo <= hi ->
  ((- S/2 <= hi /\ lo <= S/2) /\ rng1 S k z (Rmax lo (- S/2) - - S/2) (Rmin hi (S/2) - - S/2) <->
   exists x, lo <= x <= hi /\ s_in_cell1 (- S/2) (- S/2 + s_side S k * IZR z) (- S/2 + s_side S k * (IZR z + 1)) x).
Proof.
  intros S k z lo hi P [Z0 Z1] L. assert (EP := side_pos S k P). assert (PW := side_pow S k). rewrite <- pow2_IZR in PW.
  set (e := s_side S k) in *. set (w := (2 ^ Z.of_nat k)%Z) in *. apply IZR_le in Z0. assert (Z1' : IZR z + 1 <= IZR w) by (rewrite <- plus_IZR; apply IZR_le; lia).
  assert (B1 : 0 <= e * IZR z) by nra. assert (B2 : e * (IZR z + 1) <= S) by nra.
  unfold rng1, s_in_cell1. fold e w. split.
  - intros [[A1 A2] [A3 A4]]. exists (Rmin hi (- S/2 + e * (IZR z + 1))).
    assert (C1 : lo <= - S/2 + e * (IZR z + 1)).
    { destruct A4 as [A4|A4]; [|pose proof (Rmax_l lo (- S/2)); lra]. rewrite A4, minus_IZR. replace (e * (IZR w - 1 + 1)) with S by lra. lra. }
    assert (C2 : - S/2 + e * IZR z < hi \/ (z = 0%Z /\ - S/2 <= hi)).
    { destruct A3 as [A3|A3]; [auto|]. left. pose proof (Rmin_l hi (S/2)). lra. }
    split; [split; [apply Rmin_glb; lra|apply Rmin_l]|]. split; [apply Rmin_r|].
    destruct C2 as [C2|[-> C2]]; [left; apply Rmin_glb_lt; lra|]. right. rewrite Rmult_0_r in *. split; [lra|]. apply Rmin_glb; lra.
  - intros [x [X [C1 C2]]]. assert (x <= S/2) by lra. split; [split; [|lra]; destruct C2; lra|]. split.
    + destruct C2 as [C2|[C2 C3]].
      * right. unfold Rmin. destruct Rle_dec; nra.
      * left. apply eq_IZR. nra.
    + right. unfold Rmax. destruct Rle_dec; nra.
Qed.

Lemma oct_box_spec : forall S o b, 0 < S -> oinv S o -> s_ordered (b_min b) (b_max b) ->
  (oct_box o b = true <-> exists c p, In c (oct_cubes o []) /\ s_in_box (b_min b) (b_max b) p /\ s_in_cell (o_off o) (b_min c) (b_max c) p).
Proof.
  intros S o b P I [O1 [O2 O3]]. destruct I as [J1 J2 J3 J4 J5 J6].
  assert (CELL : (exists c p, In c (oct_cubes o []) /\ s_in_box (b_min b) (b_max b) p /\ s_in_cell (o_off o) (b_min c) (b_max c) p) <->
    exists path, listed (o_root o) path /\
      (exists x, vx (b_min b) <= x <= vx (b_max b) /\ s_in_cell1 (- S/2) (vx (pmin (off_of S) S path)) (vx (pmax (off_of S) S path)) x) /\
      (exists x, vy (b_min b) <= x <= vy (b_max b) /\ s_in_cell1 (- S/2) (vy (pmin (off_of S) S path)) (vy (pmax (off_of S) S path)) x) /\
      (exists x, vz (b_min b) <= x <= vz (b_max b) /\ s_in_cell1 (- S/2) (vz (pmin (off_of S) S path)) (vz (pmax (off_of S) S path)) x)).
  { unfold oct_cubes. cbn [app]. rewrite J2. split.
    - intros [c [p [C [[B1 [B2 B3]] [D1 [D2 D3]]]]]]. apply (cubes_in _ S) in C; auto. destruct C as [path [L ->]].
      exists path. split; auto. cbn [off_of vx vy vz] in *. split; [|split]; eexists; split; eauto.
    - intros [path [L [[x [X1 X2]] [[y [Y1 Y2]] [z [W1 W2]]]]]]. exists (box_make (pmin (off_of S) S path) (pmax (off_of S) S path)), (V3 x y z).
      split; [apply (cubes_in _ S); eauto|]. split; [split; auto|]. split; auto. }
  rewrite CELL. clear CELL. unfold oct_box. rewrite J2, J3.
  match goal with |- (if ?c then _ else _) = true <-> _ => destruct c eqn:E end.
  - split; [discriminate|]. intros [path [L [X [Y Z]]]]. exfalso.
    pose proof (path_valid path) as [V1 [V2 V3]].
    apply (box_axis S _ _ _ _ P V1 O1) in X. apply (box_axis S _ _ _ _ P V2 O2) in Y. apply (box_axis S _ _ _ _ P V3 O3) in Z.
    rewrite !orb_true_iff in E. cbn [nltb NumR off_of max_of vx vy vz] in E. rewrite !Rltb_true in E. lra.
  - rewrite !orb_false_iff in E. cbn [nltb NumR off_of max_of vx vy vz] in E. rewrite !Rltb_false in E.
    rewrite (node_box_spec _ S) by auto. unfold rng3. rewrite !nmax_R, !nmin_R. cbn [vsub vx vy vz off_of max_of nsub NumR].
    split; intros [path [L [X [Y Z]]]]; exists path; (split; [auto|]); pose proof (path_valid path) as [V1 [V2 V3]]; (split; [|split]).
    + apply (box_axis S _ _ _ _ P V1 O1). tauto.
    + apply (box_axis S _ _ _ _ P V2 O2). tauto.
    + apply (box_axis S _ _ _ _ P V3 O3). tauto.
    + apply (box_axis S _ _ _ _ P V1 O1) in X. tauto.
    + apply (box_axis S _ _ _ _ P V2 O2) in Y. tauto.
    + apply (box_axis S _ _ _ _ P V3 O3) in Z. tauto.
Qed.

(** ** contains *)
Fixpoint tdigs (s : R) (k : nat) (x : R) : list bool := match k with O => [] | S k => Rltb (s/2) x :: tdigs (s/2) k x end.
Lemma tdigs_len : forall k s x, length (tdigs s k x) = k.
Proof. induction k; intros; cbn; auto. Qed.
Lemma tdigs_true : forall k s x, 0 < s -> s/2 < x -> zval (tdigs s k x) = (2 ^ Z.of_nat k - 1)%Z.
Proof.
  induction k as [|k IH]; intros s x P H; [reflexivity|]. cbn [tdigs zval]. rewrite tdigs_len, IH by lra.
  replace (Rltb (s/2) x) with true by (symmetry; apply Rltb_true; auto). rewrite Nat2Z.inj_succ, Z.pow_succ_r by lia. lia.
Qed.
Lemma seen_digs : forall k s x i, 0 < s -> (s_seen s k x i <-> i = zval (tdigs s k x)).
Proof.
  induction k as [|k IH]; intros s x i P.
  - cbn. split.
    + intros [j [J [-> _]]]. replace (0 - j)%nat with 0%nat by lia. reflexivity.
    + intros ->. exists 0%nat. split; [lia|]. split; [reflexivity|]. split; left; auto.
  - destruct (Rltb (s/2) x) eqn:E.
    + apply Rltb_true in E. rewrite tdigs_true by auto. split.
      * intros [[|j] [J [-> [A B]]]]; [reflexivity|]. exfalso. destruct A as [A|A]; [lia|].
        pose proof (side_mono s 1 (S j) P ltac:(lia)) as M. rewrite (side_half s 0), side_0 in M. lra.
      * intros ->. exists 0%nat. split; [lia|]. split; [reflexivity|]. split; [auto|]. right. rewrite side_half, side_0. lra.
    + cbn [tdigs zval]. rewrite E. cbn [Z.add]. rewrite <- IH by lra. apply Rltb_false in E. split.
      * intros [[|j] [J [-> [A B]]]].
        { exfalso. destruct B as [B|B]; [lia|]. rewrite side_half, side_0 in B. lra. }
        exists j. split; [lia|]. split; [reflexivity|]. rewrite <- !side_half'. split; [destruct A as [A|A]; [lia|auto]|destruct B as [B|B]; [left; lia|auto]].
      * intros [j [J [-> [A B]]]]. exists (S j). split; [lia|]. split; [reflexivity|]. rewrite (side_half' s j), (side_half' s (S j)). split.
        { right. destruct A as [->|A]; [rewrite side_0; lra|auto]. }
        { destruct B as [B|B]; [left; lia|auto]. }
Qed.
Lemma node_contains_spec : forall n s p, sized s n ->
  (node_contains n p = true <-> exists path, listed n path /\ ax px path = tdigs s (length path) (vx p) /\
     ax py path = tdigs s (length path) (vy p) /\ ax pz path = tdigs s (length path) (vz p)).
Proof.
  induction n as [|s' sp o ch IH]; intros s p Z; [cbn; split; [discriminate|intros [? [[] _]]]|].
  destruct Z as [-> [-> Z]]. cbn [node_contains]. destruct o.
  - split; auto. intros _. exists []. cbn. auto.
  - rewrite (IH _ _ _ (s/2)) by auto. cbn [nltb NumR]. split.
    + intros [r [L [X [Y W]]]]. exists ((Rltb (s/2) (vx p), Rltb (s/2) (vy p), Rltb (s/2) (vz p)) :: r). split; [cbn; auto|].
      cbn [ax map px py pz fst snd length tdigs]. unfold ax in *. rewrite X, Y, W. auto.
    + intros [[|[[x y] z] r] [L [X [Y W]]]]; [discriminate|]. destruct L as [_ L].
      cbn [ax map px py pz fst snd length tdigs] in X, Y, W. injection X as -> X. injection Y as -> Y. injection W as -> W. exists r. auto.
Qed.
Lemma oct_contains_spec : forall S o p, 0 < S -> oinv S o ->
  (oct_contains o p = true <-> s_in_box (o_off o) (o_max o) p /\
     exists k i j l, In (box_make (s_cmin (o_off o) S k i j l) (s_cmax (o_off o) S k i j l)) (oct_cubes o []) /\
       s_seen S k (vx p - vx (o_off o)) i /\ s_seen S k (vy p - vy (o_off o)) j /\ s_seen S k (vz p - vz (o_off o)) l).
Proof.
  intros S o p P [J1 J2 J3 J4 J5 J6]. unfold oct_contains.
  match goal with |- (if ?c then _ else _) = true <-> _ => destruct c eqn:E end.
  - split; [discriminate|]. intros [[A [B C]] _]. exfalso. rewrite !orb_true_iff in E. cbn [nltb NumR] in E. rewrite !Rltb_true in E. lra.
  - rewrite !orb_false_iff in E. cbn [nltb NumR] in E. rewrite !Rltb_false in E. rewrite (node_contains_spec _ S) by auto.
    assert (IB : s_in_box (o_off o) (o_max o) p) by (unfold s_in_box; tauto). unfold oct_cubes. cbn [app vsub vx vy vz nsub NumR]. split.
    + intros [path [L [X [Y Z]]]]. split; auto. exists (length path), (zval (ax px path)), (zval (ax py path)), (zval (ax pz path)).
      split; [apply (cubes_in _ S); auto; exists path; auto|]. rewrite X, Y, Z, !seen_digs by auto. auto.
    + intros [_ [k [i [j [l [C [X [Y Z]]]]]]]]. apply (cubes_in _ S) in C; auto. destruct C as [path [L C]].
      assert (C1 := f_equal b_min C). assert (C2 := f_equal b_max C). cbn [box_make b_min b_max] in C1, C2. clear C.
      (* the cube determines its cell *)
      assert (SIDE : s_side S k = s_side S (length path)).
      { unfold pmin, pmax, s_cmin, s_cmax in C1, C2. injection C1 as A1 _ _. injection C2 as A2 _ _. lra. }
      assert (K : k = length path).
      { destruct (Nat.lt_trichotomy k (length path)) as [Q|[Q|Q]]; auto; exfalso.
        - pose proof (side_mono S (Datatypes.S k) (length path) P Q) as M. rewrite side_half in M. pose proof (side_pos S k P). lra.
        - pose proof (side_mono S (Datatypes.S (length path)) k P Q) as M. rewrite side_half in M. pose proof (side_pos S k P). lra. }
      subst k. assert (SP := side_pos S (length path) P).
      assert (INJ : forall off a b, off + s_side S (length path) * IZR a = off + s_side S (length path) * IZR b -> a = b) by (intros; apply eq_IZR; nra).
      unfold pmin, s_cmin in C1. injection C1 as A1 A2 A3. apply INJ in A1, A2, A3. subst i j l.
      exists path. split; auto. rewrite seen_digs in X, Y, Z by auto.
      split; [|split]; apply zval_inj; auto; rewrite ax_len, tdigs_len; auto.
Qed.

(** ** rays *)
Definition bchord (c : box R) (o d : vec3 R) (a b : R) : Prop := a < b /\ forall t, a < t < b -> strict (b_min c) (b_max c) (s_ray_at o d t).
Lemma z0_off : forall off : vec3 R, vadd z0 off = off.
Proof. intros [a b c]. unfold z0. unmath. apply V3_eq; ring. Qed.
Lemma incube_org : forall off s path org d t, incube z0 s path (s_ray_at (vsub org off) d t) <-> incube off s path (s_ray_at org d t).
Proof. intros. rewrite at_sub, <- incube_off, z0_off. tauto. Qed.
Lemma scube_org : forall off s path org d t, scube z0 s path (s_ray_at (vsub org off) d t) <-> scube off s path (s_ray_at org d t).
Proof. intros. rewrite at_sub, <- scube_off, z0_off. tauto. Qed.
Lemma root_org : forall S org d t, s_in_box z0 (hi3 S) (s_ray_at (vsub org (off_of S)) d t) <-> s_in_box (off_of S) (max_of S) (s_ray_at org d t).
Proof.
  intros. rewrite at_sub. destruct (s_ray_at org d t) as [a b c]. unfold s_in_box, z0, hi3, off_of, max_of. unmath. lra.
Qed.
Lemma gen_unit : forall d, s_general_dir d -> gen (s_unit d).
Proof.
  intros d H. assert (U : s_unit (s_unit d) = s_unit d) by (apply unit_unit, norm_unit, general_nonzero; auto).
  split; auto. unfold s_general_dir in *. rewrite U. auto.
Qed.

(** the slab interval of the whole octree *)
Lemma oct_slab : forall S o org d, 0 < S -> oinv S o -> s_general_dir d ->
  exists lo hi, (forall t, s_in_box (o_off o) (o_max o) (s_ray_at org (s_unit d) t) <-> lo <= t <= hi) /\
  forall t0 t1 d0, (lo <= hi /\ box_ray (box_make (o_off o) (o_max o)) (ray_make org d) t0 t1 d0 = ((Rltb t0 hi && Rltb lo t1)%bool, lo)) \/
    (hi < lo /\ box_ray (box_make (o_off o) (o_max o)) (ray_make org d) t0 t1 d0 = (false, d0)).
Proof.
  intros S o org d P [J1 J2 J3 _ _ _] G. apply (ray_box_slabs (box_make (o_off o) (o_max o)) org d); auto.
  rewrite J2, J3. unfold s_ordered, off_of, max_of. cbn [box_make b_min b_max vx vy vz]. lra.
Qed.

(** chords of listed cubes start inside the slab *)
Lemma chord_lo : forall off s path org d a b lo hi, 0 < s -> (forall t, s_in_box off (vadd off (V3 s s s)) (s_ray_at org d t) <-> lo <= t <= hi) ->
  chord off s path org d a b -> lo <= a /\ b <= hi.
Proof.
  intros off s path org d a b lo hi P SL [L C].
  assert (K : forall t, a < t < b -> lo <= t <= hi).
  { intros t T. apply SL. specialize (C t T). pose proof (path_bounds off s path P) as B. unfold inb, scube, strict, s_in_box in *. lra. }
  split; apply Rnot_lt_le; intros N.
  - destruct (Rle_dec b lo); [specialize (K ((a+b)/2)); lra|specialize (K ((a+lo)/2)); lra].
  - destruct (Rle_dec a hi); [specialize (K ((hi+b)/2)); lra|specialize (K ((a+b)/2)); lra].
Qed.

Lemma classic_gen : forall d, s_general_dir d \/ ~ s_general_dir d.
Proof. intros d. unfold s_general_dir. destruct (Rle_dec (1/1000000000) (Rabs (vx (s_unit d)))), (Rle_dec (1/1000000000) (Rabs (vy (s_unit d)))), (Rle_dec (1/1000000000) (Rabs (vz (s_unit d)))); tauto. Qed.
Definition start_ok (o : octree R) (org : vec3 R) (t0 : R) : Prop := t0 = 0 \/ (0 <= t0 /\ s_in_box (o_off o) (o_max o) org).

Lemma max_is : forall S, vadd (off_of S) (V3 S S S) = max_of S.
Proof. intros. unfold off_of, max_of. unmath. apply V3_eq; lra. Qed.

(** every octree ray query terminates; hits are real; nothing crossed over more than a tenth of the resolution is passed over *)
Lemma oct_ray_spec : forall S o, 0 < S -> oinv S o -> exists F, forall fuel, (F <= fuel)%nat -> forall org d t0 t1 d0,
  (s_general_dir d \/ 0 <= t0) ->
  exists h x, oct_ray fuel o (ray_make org d) t0 t1 d0 = Ret (h, x) /\
  (s_general_dir d -> t0 < t1 -> h = true ->
     exists c t, In c (oct_cubes o []) /\ t0 < t /\ s_in_box (b_min c) (b_max c) (s_ray_at org (s_unit d) t) /\ (x = d0 \/ t = x + o_res o * (1/10)) /\
       (start_ok o org t0 -> forall c' a b, In c' (oct_cubes o []) -> bchord c' org (s_unit d) a b -> t0 <= a -> b <= t -> b - a <= o_res o * (1/10))) /\
  (s_general_dir d -> h = false -> start_ok o org t0 ->
     forall c a b, In c (oct_cubes o []) -> bchord c org (s_unit d) a b -> t0 <= a < t1 -> b - a <= o_res o * (1/10)) /\
  (~ s_general_dir d -> h = false).
Proof.
  intros S o P I. pose proof I as [J1 J2 J3 J4 J5 [m J6]]. assert (RP : 0 < o_res o) by (rewrite J6; apply side_pos; auto).
  destruct (node_ray_spec (o_res o) RP (o_root o) S P J4 J5) as [F HF]. exists F. intros fuel L org d t0 t1 d0 GD.
  destruct (classic_gen d) as [G|NG].
  2:{ destruct GD as [GD|GD]; [contradiction|]. pose proof (ray_box_parallel (box_make (o_off o) (o_max o)) org d t0 t1 (n0 / n0)%num NG GD) as H.
      unfold oct_ray. destruct (box_ray _ _ _ _ _) as [h' dist]. cbn [fst] in H. subst h'. exists false, d0. split; auto. split; [intros; contradiction|]. split; [intros; contradiction|auto]. }
  clear GD. destruct (oct_slab S o org d P I G) as [lo [hi [SL BR]]]. set (del := o_res o * (1/10)). set (u := s_unit d) in *.
  assert (CH : forall c a b, In c (oct_cubes o []) -> bchord c org u a b -> exists path, listed (o_root o) path /\ chord (off_of S) S path org u a b /\
             chord z0 S path (vsub org (off_of S)) u a b /\ lo <= a /\ b <= hi).
  { intros c a b C [L' C']. unfold oct_cubes in C. cbn [app] in C. apply (cubes_in _ S) in C; auto. destruct C as [path [LI ->]]. cbn [box_make b_min b_max] in C'. rewrite J2 in C'.
    assert (CC : chord (off_of S) S path org u a b) by (split; auto). exists path. split; auto. split; auto. split.
    - split; auto. intros t T. apply scube_org. apply C'; auto.
    - apply (chord_lo (off_of S) S path org u a b lo hi P); [|exact CC]. intros t. rewrite max_is. rewrite <- J2, <- J3. apply SL. }
  unfold oct_ray. destruct (BR t0 t1 (n0 / n0)%num) as [[LH ->]|[LH ->]].
  2:{ cbn [negb]. exists false, d0. split; auto. split; [discriminate|]. split; [|auto]. intros _ _ _ c a b C C' _. exfalso.
      destruct (CH c a b C C') as [path [_ [[CL _] [_ [A B]]]]]. lra. }
  destruct (Rltb t0 hi && Rltb lo t1)%bool eqn:EH; cbn [negb].
  2:{ exists false, d0. split; auto. split; [discriminate|]. split; [|auto]. intros _ _ _ c a b C C' [T1 T2]. exfalso.
      destruct (CH c a b C C') as [path [_ [[CL _] [_ [A B]]]]]. apply andb_false_iff in EH. rewrite !Rltb_false in EH. lra. }
  apply andb_true_iff in EH. rewrite !Rltb_true in EH. destruct EH as [H1 H2].
  change (r_d (ray_make org d)) with u. change (r_o (ray_make org d)) with org. rewrite J2. rewrite nmax_R. cbn [nf32 nadd nmul NumR n0 nofZ]. change (nlit 1 10) with (1/10). fold del.
  set (st := t0 + Rmax lo 0 + del).
  destruct (HF fuel L (vsub org (off_of S)) u st t1 d0 (gen_unit d G)) as [h [x [E [R1 R2]]]]. fold del in R1, R2.
  exists h, x. split; [exact E|].
  assert (DP : 0 < del) by (unfold del; lra). assert (M0 := Rmax_r lo 0). assert (ML := Rmax_l lo 0).
  assert (ST : start_ok o org t0 -> 0 <= t0 /\ forall a b, lo <= a -> t0 <= a -> del < b - a -> due st del a b).
  { intros [->|[T IN]].
    - split; [lra|]. intros a b A T D. assert (Rmax lo 0 <= a) by (apply Rmax_lub; lra). split; [unfold st; lra|]. right. lra.
    - split; auto. intros a b A T' D. assert (LO : lo <= 0). { apply SL. replace (s_ray_at org u 0) with org; auto. destruct org as [e f g]. unfold s_ray_at. cbn [vx vy vz]. apply V3_eq; ring. }
      assert (Rmax lo 0 = 0) by (apply Rmax_right; auto). split; [unfold st; lra|]. right. lra. }
  split; [|split; [|intros; contradiction]].
  - intros _ TT ->. destruct (occ_dec [] (o_root o)) as [OC|OC].
    + (* everything is occupied *)
      assert (XD : x = d0). { destruct fuel as [|fuel]; [discriminate|]. destruct (o_root o) as [|s' sp oc ch]; [contradiction|]. cbn in OC. subst oc. cbn in E. congruence. }
      set (w := Rmax t0 lo). set (w' := Rmin t1 hi).
      assert (W : w < w' \/ (w = w' /\ t0 < w)). { unfold w, w', Rmax, Rmin. destruct (Rle_dec t0 lo), (Rle_dec t1 hi); lra. }
      assert (W1 := Rmax_l t0 lo). assert (W2 := Rmax_r t0 lo). assert (W3 := Rmin_l t1 hi). assert (W4 := Rmin_r t1 hi). fold w in W1, W2. fold w' in W3, W4.
      set (t := Rmin ((w + w')/2) (w + del)).
      assert (T1 : w <= t <= w') by (unfold t, Rmin; destruct Rle_dec; lra). assert (T2 : t0 < t) by (unfold t, Rmin; destruct Rle_dec; lra).
      assert (T3 : t <= w + del) by apply Rmin_r.
      exists (box_make (pmin (off_of S) S []) (pmax (off_of S) S [])), t. split; [|split; [auto|split; [|split; [auto|]]]].
      * unfold oct_cubes. cbn [app]. apply (cubes_in _ S); auto. exists []. rewrite J2. split; auto. destruct (o_root o); auto.
      * cbn [box_make b_min b_max]. change (incube (off_of S) S [] (s_ray_at org u t)). apply incube_org, incube_nil, root_org. rewrite <- J2, <- J3. apply SL. lra.
      * intros _ c' a b C C' A B. destruct (CH c' a b C C') as [path [_ [_ [_ [A' B']]]]].
        assert (w <= a) by (apply Rmax_lub; auto). lra.
    + destruct (R1 eq_refl (or_introl OC)) as [path [t [LI [T [IC [D N]]]]]].
      exists (box_make (pmin (off_of S) S path) (pmax (off_of S) S path)), t. split; [|split; [unfold st in T; lra|split; [apply incube_org; exact IC|split]]].
      * unfold oct_cubes. cbn [app]. apply (cubes_in _ S); auto. exists path. rewrite J2. auto.
      * destruct D as [[_ D]|D]; auto.
      * intros SO c' a b C C' A B. apply Rnot_lt_le. intros LT. destruct (CH c' a b C C') as [path' [LI' [_ [C2 [A' B']]]]].
        apply (N path' a b LI' C2 B). apply ST; auto.
  - intros _ -> SO c a b C C' [T1 T2]. apply Rnot_lt_le. intros LT. destruct (CH c a b C C') as [path [LI [_ [C2 [A' B']]]]].
    destruct (ST SO) as [T0 DU]. apply (R2 eq_refl) with (path := path) (a := a) (b := b); auto.
    exists lo. split; [unfold st; lra|]. apply root_org. rewrite <- J2, <- J3. apply SL. lra.
Qed.
