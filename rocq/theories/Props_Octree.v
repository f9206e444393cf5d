(** * Properties C32, C40-C46: octrees *)
From Coq Require Import ZArith NArith List Bool Lia Reals Lra Psatz.
From Verif Require Import Num MathTypes Outcome Mesh Box Octree Spec SpecOctree NumOrd P_Tac P_Math P_Rot P_Mesh P_MeshFilter P_MeshGeo P_Box P_BoxMesh
  P_Composite P_Octree P_OctreeRay P_OctreeRun P_OctreeQ P_OctreeTrace P_OctreeMesh P_Float Props_Mesh Props_Box.
Import ListNotations.
Local Open Scope R_scope.

(** ** C40 *)
Theorem C40_new : forall S req, 0 < S -> 0 < req -> exists F o, forall fuel, (F <= fuel)%nat ->
  oct_new fuel S req = Ret o /\ s_resolution S req (o_res o) /\ oct_cubes o [] = [].
Proof.
  intros S req P Q. destruct (resolution_ex S req P Q) as [m [A B]]. exists (Datatypes.S m).
  eexists. intros fuel L. unfold oct_new, oct_setRes. cbn [o_size]. rewrite (halve_ok m S req A B fuel) by lia. cbn [obind]. split; [reflexivity|].
  cbn [o_res]. split; [apply resolution_spec; auto|reflexivity].
Qed.
Theorem C40_set : forall S o req, 0 < S -> s_reach S o -> 0 < req -> exists F o', forall fuel, (F <= fuel)%nat ->
  oct_setRes fuel o req = Ret o' /\ s_resolution S req (o_res o') /\ oct_cubes o' [] = oct_cubes o [].
Proof.
  intros S o req P R Q. destruct (reach_inv _ _ P R) as [I1 _ _ _ _ _]. destruct (resolution_ex S req P Q) as [m [A B]]. exists (Datatypes.S m).
  eexists. intros fuel L. unfold oct_setRes. rewrite I1, (halve_ok m S req A B fuel) by lia. cbn [obind]. split; [reflexivity|].
  cbn [o_res]. split; [apply resolution_spec; auto|reflexivity].
Qed.
(** whatever is returned obeys the rule, and a request that is not positive never returns *)
Theorem C40_any : forall fuel S o req o', 0 < S -> s_reach S o -> oct_setRes fuel o req = Ret o' -> 0 < req /\ s_resolution S req (o_res o').
Proof.
  intros fuel S o req o' P R H. destruct (reach_inv _ _ P R) as [I1 _ _ _ _ _]. unfold oct_setRes in H. rewrite I1 in H.
  destruct (halve fuel S req) as [x| | |] eqn:E; try discriminate. injection H as <-. cbn [o_res].
  destruct (halve_side _ _ _ _ E P) as [m [A [B C]]]. pose proof (side_pos S m P). split; [lra|]. rewrite A. apply resolution_spec; auto. lra.
Qed.
Theorem C40_not_positive : forall fuel S req, 0 < S -> req <= 0 -> oct_new fuel S req = Fuel.
Proof. intros. unfold oct_new, oct_setRes. cbn [o_size]. rewrite halve_diverges by auto. reflexivity. Qed.
Example C40_nonvacuous : s_resolution 5 (3/2) (5/4).
Proof.
  replace (5/4) with (s_side 5 2) by (unfold s_side; cbn; lra). apply resolution_spec; try lra.
  - unfold s_side. cbn. lra.
  - intros [|[|j]] J; [unfold s_side; cbn; lra..|lia].
Qed.
Print Assumptions C40_new.
Print Assumptions C40_set.
Print Assumptions C40_any.
Print Assumptions C40_not_positive.

(** ** C41 *)
Definition no_cells : cells := fun _ _ _ _ => False.
Lemma octs_new : forall fuel S req o, 0 < S -> oct_new fuel S req = Ret o -> octs S o no_cells.
Proof.
  intros fuel S req o P H. destruct (oct_new_inv _ _ _ _ P H) as [I [_ E]]. split; auto. split.
  - intros path. rewrite E. split; [intros X; elim (occ_new _ _ X)|intros []].
  - intros ? ? ? ? [].
Qed.
(** the cubes after any history of adds, clears, resolution changes and queries *)
Theorem C41_cells : forall fuel S req ops o0 o res A, 0 < S -> oct_new fuel S req = Ret o0 ->
  s_hist S (off_of S) (o_res o0) no_cells ops res A -> oct_run fuel o0 ops = Ret o ->
  o_res o = res /\
  (forall b, In b (oct_cubes o []) <-> exists k i j l, s_uncovered A k i j l /\
     b = box_make (s_cmin (off_of S) S k i j l) (s_cmax (off_of S) S k i j l)).
Proof.
  intros fuel S req ops o0 o res A P N H R. destruct (octs_run _ _ _ _ _ _ _ _ P (octs_new _ _ _ _ P N) H R) as [O E].
  split; auto. intros b. apply octs_cubes; auto.
Qed.
(** getCubes appends to the vector it is given *)
Theorem C41_appends : forall (T : Type) (NT : Num T) (o : octree T) cubes, oct_cubes o cubes = cubes ++ oct_cubes o [].
Proof. reflexivity. Qed.
(** the listed cubes lie inside the octree and do not overlap *)
Theorem C41_disjoint : forall S o, 0 < S -> s_reach S o ->
  (forall b, In b (oct_cubes o []) -> forall p, s_in_box (b_min b) (b_max b) p -> s_in_box (off_of S) (max_of S) p) /\
  ForallOrdPairs (fun a b : box R => s_apart (b_min a) (b_max a) (b_min b) (b_max b)) (oct_cubes o []) /\ NoDup (oct_cubes o []).
Proof.
  intros S o P R. destruct (reach_inv _ _ P R) as [I1 I2 I3 I4 I5 I6]. unfold oct_cubes. cbn [app]. rewrite I2.
  pose proof (cubes_apart _ _ (off_of S) P I4) as D. split; [|split; auto].
  - intros b B p [[A1 A2] [[A3 A4] [A5 A6]]]. apply (cubes_in _ _ _ _ I4) in B. destruct B as [path [_ ->]].
    destruct (path_bounds (off_of S) S path P) as [B1 [B2 [B3 [B4 [B5 B6]]]]]. rewrite max_is in *. cbn [box_make b_min b_max] in *.
    unfold s_in_box. lra.
  - assert (V : forall b, In b (node_cubes (o_root o) (off_of S)) -> ~ s_apart (b_min b) (b_max b) (b_min b) (b_max b)).
    { intros b B. apply (cubes_in _ _ _ _ I4) in B. destruct B as [path [_ ->]]. cbn [box_make b_min b_max].
      unfold s_apart, pmin, pmax, s_cmin, s_cmax. cbn [vx vy vz]. pose proof (side_pos S (length path) P). intros X.
      repeat destruct X as [X|X]; lra. }
    revert V D. induction (node_cubes (o_root o) (off_of S)) as [|b l IH]; intros V D; constructor.
    + intros X. inversion D as [|? ? F _]; subst. rewrite Forall_forall in F. apply (V b); [left; auto|]. apply F, X.
    + apply IH; [intros; apply V; right; auto|]. inversion D; auto.
Qed.
(** every history of adds, clears, positive resolution requests, ray clearings, setMesh and copies returns *)
Definition s_plain (op : oct_op R) : Prop :=
  match op with OSetRes r => 0 < r | OGetMesh | OGetBBox => False | _ => True end.
Lemma res_pos : forall S o, 0 < S -> oinv S o -> 0 < o_res o.
Proof. intros S o P I. destruct (oi_res _ _ I) as [m ->]. apply side_pos, P. Qed.
Lemma step_returns : forall S o op, 0 < S -> oinv S o -> s_plain op -> exists fuel o', oct_step fuel o op = Ret o'.
Proof.
  intros S o op P I Q. pose proof (res_pos _ _ P I) as RP. destruct I as [I1 I2 I3 I4 I5 I6]. destruct op as [p| |r|r t0 t1| | |m|]; cbn [oct_step s_plain] in *.
  - destruct (level_ex S (o_res o) P RP) as [k K].
    destruct (add_spec k (Datatypes.S k) S (o_res o) (o_root o) (vsub p (o_off o)) ltac:(lia) I4 I5 K) as [n' [E _]].
    exists (Datatypes.S k). eexists. unfold oct_add. rewrite E. reflexivity.
  - exists 0%nat. eauto.
  - destruct (resolution_ex S r P Q) as [m [A B]]. exists (Datatypes.S m). eexists. unfold oct_setRes. rewrite I1, (halve_ok m S r A B) by lia. reflexivity.
  - assert (I : oinv S o) by (constructor; auto).
    assert (E : exists F, forall fuel, (F <= fuel)%nat -> exists n', node_raytrace fuel (o_res o) (o_root o) (vsub (r_o r) (o_off o)) (r_d r)
      (nf32 (t0 + nmax (snd (box_ray (box_make (o_off o) (o_max o)) r t0 t1 (n0 / n0)%num)) n0 + (o_res o * nlit 1 10)))%num t1 = Ret n').
    { set (tt0 := nf32 _). destruct (hgt_ex (o_root o)) as [k K]. assert (D : 0 < o_res o * (1/10)) by lra.
      destruct (bounded_steps (t1 - tt0) _ D) as [N HN].
      destruct (node_raytrace_any (o_res o) RP N k S P) as [F HF]. exists F. intros fuel L.
      destruct (HF _ K I4 I5 fuel L (vsub (r_o r) (o_off o)) (r_d r) tt0 t1 HN) as [n' [E _]]. eauto. }
    destruct E as [F E]. set (hd := box_ray _ _ _ _ _) in *.
    destruct (fst hd) eqn:H.
    + destruct (level_ex S (o_res o) P RP) as [k K]. destruct (E (F + Datatypes.S k)%nat ltac:(lia)) as [n' E'].
      destruct (raytrace_sized _ _ _ _ _ _ _ _ _ I4 E') as [S1 S2].
      destruct (add_spec k (F + Datatypes.S k) S (o_res o) n' (vsub (vadd (r_o r) (vscale (r_d r) t1)) (o_off o)) ltac:(lia) S1 S2 K) as [n'' [E'' _]].
      exists (F + Datatypes.S k)%nat. eexists. unfold oct_raytrace. fold hd. destruct hd as [h x]. cbn [fst snd] in *. subst h. cbn [negb].
      rewrite E'. cbn [obind]. unfold oct_add. cbn [o_res o_root o_off]. rewrite E''. reflexivity.
    + exists 0%nat, o. unfold oct_raytrace. fold hd. destruct hd as [h x]. cbn [fst] in H. subst h. reflexivity.
  - contradiction.
  - contradiction.
  - exists 0%nat. eauto.
  - exists 0%nat. eauto.
Qed.
(** getMaxRadius is the size given at construction; no point of a listed cube is further from the origin *)
Theorem C41_radius : forall S o, 0 < S -> s_reach S o ->
  oct_maxRadius o = S /\ forall b p, In b (oct_cubes o []) -> s_in_box (b_min b) (b_max b) p -> s_norm p < oct_maxRadius o.
Proof.
  intros S o P R. destruct (C41_disjoint S o P R) as [IN _]. destruct (reach_inv _ _ P R) as [I1 I2 I3 I4 I5 I6]. unfold oct_maxRadius.
  assert (E : o_size o = S) by assumption. split; [exact E|]. rewrite E. intros b p B IB. pose proof (IN b B p IB) as [[X1 X2] [[Y1 Y2] [Z1 Z2]]].
  unfold off_of, max_of in *. cbn in X1, X2, Y1, Y2, Z1, Z2. unfold s_norm, s_dot. rewrite <- (sqrt_square S) by lra. apply sqrt_lt_1_alt. nra.
Qed.
Theorem C41_returns : forall S req ops, 0 < S -> 0 < req -> Forall s_plain ops ->
  exists F o0 o, forall fuel, (F <= fuel)%nat -> oct_new fuel S req = Ret o0 /\ oct_run fuel o0 ops = Ret o.
Proof.
  intros S req ops P Q HO. destruct (C40_new S req P Q) as [F0 [o0 H0]]. pose proof (oct_new_inv _ _ _ _ P (proj1 (H0 F0 (le_n _)))) as [I0 _].
  assert (K : forall o, oinv S o -> exists f o', oct_run f o ops = Ret o').
  { induction HO as [|op ops Hop HO IH]; intros o I; [exists 0%nat, o; cbn; auto|].
    destruct (step_returns S o op P I Hop) as [f [o1 E]]. destruct (IH o1 (step_inv _ _ _ _ _ P I E)) as [f' [o2 E']].
    exists (f + f')%nat, o2. cbn [oct_run]. rewrite (step_fuel f (f + f')%nat o op o1 ltac:(lia) E). cbn [obind]. apply (run_fuel f' (f + f')%nat ops o1 o2 ltac:(lia) E'). }
  destruct (K o0 I0) as [f [o E]]. exists (F0 + f)%nat, o0, o. intros fuel L. split; [apply H0; lia|]. apply (run_fuel f fuel ops o0 o ltac:(lia) E).
Qed.

(** fixed resolution: one cube of side r per distinct cell added since the last clear *)
Lemma hist_app : forall S off res A o1 res1 A1 o2 res2 A2, s_hist S off res A o1 res1 A1 -> s_hist S off res1 A1 o2 res2 A2 -> s_hist S off res A (o1 ++ o2) res2 A2.
Proof. intros S off res A o1 res1 A1 o2 res2 A2 H. induction H; intros K; cbn [app]; auto; econstructor; eauto. Qed.
Fixpoint adds (S : R) (off : vec3 R) (res : R) (A : cells) (pts : list (vec3 R)) : cells :=
  match pts with
  | [] => A
  | p :: r => adds S off res (fun k i j l => A k i j l \/ (s_level S res k /\ s_cell S k (s_diff p off) i j l)) r
  end.
Lemma hist_adds : forall S off res pts A, s_hist S off res A (map OAdd pts) res (adds S off res A pts).
Proof. induction pts as [|p r IH]; intros A; cbn [map adds]; constructor. apply IH. Qed.
Lemma adds_iff : forall S off res pts A k i j l, adds S off res A pts k i j l <->
  A k i j l \/ (s_level S res k /\ exists p, In p pts /\ s_cell S k (s_diff p off) i j l).
Proof.
  induction pts as [|p r IH]; intros A k i j l; cbn [adds]; [|rewrite IH].
  - split; auto. intros [H|[_ [p [[] _]]]]; auto.
  - split.
    + intros [[H|[H1 H2]]|[H1 [q [Q1 Q2]]]]; auto; right; split; auto; [exists p|exists q]; cbn [In]; auto.
    + intros [H|[H1 [q [[-> |Q1] Q2]]]]; auto. right. split; eauto.
Qed.
Definition s_addclear (op : oct_op R) : Prop := match op with OAdd _ | OClear => True | _ => False end.
Lemma hist_ac : forall S off res ops A, Forall s_addclear ops -> exists A', s_hist S off res A ops res A'.
Proof.
  intros S off res ops A H. revert A. induction H as [|op ops Hop H IH]; intros A; [eexists; constructor|].
  destruct op; try contradiction; (edestruct IH as [A' K]; exists A'; constructor; exact K).
Qed.
Theorem C41_fixed : forall fuel S req o0 before pts o, 0 < S -> oct_new fuel S req = Ret o0 -> 1 / 10 ^ 10 <= o_res o0 ->
  Forall s_addclear before ->
  (oct_run fuel o0 (before ++ OClear :: map OAdd pts) = Ret o \/ oct_run fuel o0 (map OAdd pts) = Ret o) ->
  exists m, o_res o0 = s_side S m /\ o_res o = o_res o0 /\
  (forall b, In b (oct_cubes o []) <-> exists p i j l, In p pts /\ s_cell S m (s_diff p (off_of S)) i j l /\
     b = box_make (s_cmin (off_of S) S m i j l) (s_cmax (off_of S) S m i j l)) /\
  (forall p, In p pts -> s_in_box (off_of S) (max_of S) p -> exists b, In b (oct_cubes o []) /\ s_in_cell (off_of S) (b_min b) (b_max b) p).
Proof.
  intros fuel S req o0 before pts o P N T AC RUN. destruct (oct_new_inv _ _ _ _ P N) as [I _]. destruct (oi_res _ _ I) as [m M]. exists m. split; auto.
  assert (O : octs S o (adds S (off_of S) (o_res o0) no_cells pts) /\ o_res o = o_res o0).
  { destruct RUN as [RUN|RUN]; apply (octs_run _ _ _ _ _ _ _ _ P (octs_new _ _ _ _ P N)) with (2 := RUN).
    - destruct (hist_ac S (off_of S) (o_res o0) before no_cells AC) as [A' K]. eapply hist_app; [exact K|]. constructor. apply hist_adds.
    - apply hist_adds. }
  destruct O as [O ->]. split; auto. rewrite M in *. pose proof (level_exact S m P T) as LV.
  assert (C : forall b, In b (oct_cubes o []) <-> exists p i j l, In p pts /\ s_cell S m (s_diff p (off_of S)) i j l /\
     b = box_make (s_cmin (off_of S) S m i j l) (s_cmax (off_of S) S m i j l)).
  { intros b. rewrite (octs_cubes _ _ _ b O). split.
    - intros [k [i [j [l [[U _] E]]]]]. apply adds_iff in U. destruct U as [[]|[L [p [IN CE]]]].
      rewrite (level_uniq _ _ _ _ L LV) in *. exists p, i, j, l. auto.
    - intros [p [i [j [l [IN [CE E]]]]]]. exists m, i, j, l. split; auto. split.
      + apply adds_iff. right. split; eauto.
      + intros k' i' j' l' LT _ U. apply adds_iff in U. destruct U as [[]|[L _]]. pose proof (level_uniq _ _ _ _ L LV). lia. }
  split; auto. intros p IN B. pose proof (dpath_cell m S (s_diff p (off_of S))) as CE. eexists. split; [apply C; exists p; do 3 eexists; split; [exact IN|split; [exact CE|reflexivity]]|].
  cbn [box_make b_min b_max]. destruct B as [B1 [B2 B3]].
  assert (AXIS : forall x i, - S / 2 <= x <= S / 2 -> s_cell1 S m (x - - S / 2) i -> s_in_cell1 (- S/2) (- S/2 + s_side S m * IZR i) (- S/2 + s_side S m * (IZR i + 1)) x).
  { intros x i X [R [C1 C2]]. pose proof (side_pow S m) as SP. split.
    - destruct C2 as [-> |C2]; [|lra]. rewrite minus_IZR, pow2_IZR. nra.
    - destruct C1 as [-> |C1]; [right; lra|left; lra]. }
  destruct CE as [C1 [C2 C3]]. unfold s_in_cell. unfold s_diff, off_of, max_of, s_cmin, s_cmax in *. cbn [vx vy vz] in *. auto 6.
Qed.
(** example: side 4, resolution 1, two points stored after a clear *)
Definition ex_p : vec3 R := V3 (3/2) (3/2) (3/2).
Definition ex_q : vec3 R := V3 (-3/2) (1/2) (-3/2).
Definition ex_ops : list (oct_op R) := [OAdd (V3 0 0 0); OClear; OAdd ex_p; OAdd ex_q].
Definition ex_c : box R := box_make (V3 1 1 1) (V3 2 2 2).
Definition ex_c2 : box R := box_make (V3 (-2) 0 (-2)) (V3 (-1) 1 (-1)).
Lemma side42 : s_side 4 2 = 1.
Proof. unfold s_side. cbn. lra. Qed.
Lemma ex_cell_p : s_cell 4 2 (s_diff ex_p (off_of 4)) 3 3 3.
Proof. unfold s_cell, s_cell1. rewrite side42. unfold s_diff, ex_p, off_of. cbn [vx vy vz]. repeat split; try (cbn; lia); try (right; lra); left; reflexivity. Qed.
Lemma ex_cell_q : s_cell 4 2 (s_diff ex_q (off_of 4)) 0 2 0.
Proof.
  unfold s_cell, s_cell1. rewrite side42. unfold s_diff, ex_q, off_of. cbn [vx vy vz].
  repeat split; try (cbn; lia); try (left; reflexivity); right; lra.
Qed.
Lemma ex_oct : exists F o0 o, (forall fuel, (F <= fuel)%nat -> oct_new fuel 4 1 = Ret o0 /\ oct_run fuel o0 ex_ops = Ret o) /\
  o_res o0 = 1 /\ o_res o = 1 /\ forall b, In b (oct_cubes o []) <-> b = ex_c \/ b = ex_c2.
Proof.
  assert (PL : Forall s_plain ex_ops) by (repeat constructor).
  destruct (C41_returns 4 1 ex_ops ltac:(lra) ltac:(lra) PL) as [F [o0 [o H]]]. exists F, o0, o. split; auto.
  destruct (H F (le_n _)) as [N RUN]. destruct (oct_new_inv F 4 1 o0 ltac:(lra) N) as [_ [RS _]].
  assert (R1 : s_resolution 4 1 1).
  { rewrite <- side42 at 2. apply resolution_spec; [lra|rewrite side42; lra|]. intros [|[|j]] J; [unfold s_side; cbn; lra..|lia]. }
  pose proof (resolution_unique _ _ _ _ RS R1) as RR. split; auto.
  destruct (C41_fixed F 4 1 o0 [OAdd (V3 0 0 0)] [ex_p; ex_q] o ltac:(lra) N ltac:(rewrite RR; lra) ltac:(repeat constructor) (or_introl RUN)) as [m [M [E [C _]]]].
  split; [congruence|]. assert (m = 2%nat).
  { rewrite RR, <- side42 in M. unfold s_side in M. destruct (Nat.lt_trichotomy m 2) as [L|[L|L]]; auto; exfalso.
    - assert (X : 2 ^ m < 2 ^ 2) by (apply Rlt_pow; [lra|auto]). assert (0 < 2 ^ m) by (apply pow_lt; lra).
      assert (Y : / 2 ^ 2 < / 2 ^ m) by (apply Rinv_lt_contravar; auto; apply Rmult_lt_0_compat; auto; lra). unfold Rdiv in M. lra.
    - assert (X : 2 ^ 2 < 2 ^ m) by (apply Rlt_pow; [lra|auto]). assert (0 < 2 ^ m) by (apply pow_lt; lra).
      assert (Y : / 2 ^ m < / 2 ^ 2) by (apply Rinv_lt_contravar; auto; apply Rmult_lt_0_compat; auto; lra). unfold Rdiv in M. lra. }
  subst m. pose proof side42 as S42.
  assert (B1 : box_make (s_cmin (off_of 4) 4 2 3 3 3) (s_cmax (off_of 4) 4 2 3 3 3) = ex_c).
  { unfold ex_c, s_cmin, s_cmax, off_of. rewrite S42. cbn [vx vy vz]. f_equal; apply V3_eq; lra. }
  assert (B2 : box_make (s_cmin (off_of 4) 4 2 0 2 0) (s_cmax (off_of 4) 4 2 0 2 0) = ex_c2).
  { unfold ex_c2, s_cmin, s_cmax, off_of. rewrite S42. cbn [vx vy vz]. f_equal; apply V3_eq; lra. }
  intros b. rewrite C. split.
  - intros [p [i [j [l [[<- |[<- |[]]] [CE ->]]]]]].
    + destruct (cell_uniq 4 _ _ _ _ _ _ _ _ ltac:(lra) CE ex_cell_p) as [-> [-> ->]]. left. exact B1.
    + destruct (cell_uniq 4 _ _ _ _ _ _ _ _ ltac:(lra) CE ex_cell_q) as [-> [-> ->]]. right. exact B2.
  - intros [-> | ->].
    + exists ex_p, 3%Z, 3%Z, 3%Z. split; [left; auto|]. split; [apply ex_cell_p|auto].
    + exists ex_q, 0%Z, 2%Z, 0%Z. split; [right; left; auto|]. split; [apply ex_cell_q|auto].
Qed.
Lemma ex_reach : exists o, s_reach 4 o /\ o_res o = 1 /\ forall b, In b (oct_cubes o []) <-> b = ex_c \/ b = ex_c2.
Proof. destruct ex_oct as [F [o0 [o [H [_ [E C]]]]]]. destruct (H F (le_n _)). exists o. split; auto. exists F, 1, ex_ops, o0. auto. Qed.
Example C41_nonvacuous : exists fuel o0 o, oct_new fuel 4 1 = Ret o0 /\ 1 / 10 ^ 10 <= o_res o0 /\
  oct_run fuel o0 ([OAdd (V3 0 0 0)] ++ OClear :: map OAdd [ex_p; ex_q]) = Ret o /\ In ex_c (oct_cubes o []) /\ In ex_c2 (oct_cubes o []) /\ s_reach 4 o.
Proof.
  destruct ex_oct as [F [o0 [o [H [R0 [E C]]]]]]. destruct (H F (le_n _)) as [N RUN]. exists F, o0, o. split; auto. split; [rewrite R0; lra|].
  split; auto. split; [apply C; auto|]. split; [apply C; auto|]. exists F, 1, ex_ops, o0. auto.
Qed.
Print Assumptions C41_cells.
Print Assumptions C41_appends.
Print Assumptions C41_disjoint.
Print Assumptions C41_radius.
Print Assumptions C41_returns.
Print Assumptions C41_fixed.

(** ** C42: what the query really computes *)
Theorem C42_exact : forall S o p, 0 < S -> s_reach S o ->
  (oct_contains o p = true <-> s_in_box (off_of S) (max_of S) p /\
     exists k i j l, In (box_make (s_cmin (off_of S) S k i j l) (s_cmax (off_of S) S k i j l)) (oct_cubes o []) /\
       s_seen S k (vx p - vx (off_of S)) i /\ s_seen S k (vy p - vy (off_of S)) j /\ s_seen S k (vz p - vz (off_of S)) l).
Proof.
  intros S o p P R. pose proof (reach_inv _ _ P R) as I. pose proof (oct_contains_spec S o p P I) as C. destruct I as [_ I2 I3 _ _ _]. rewrite I2, I3 in C. exact C.
Qed.
(** the query agrees with the cells on the lower half of a power-of-two ladder *)
Definition s_ladder (S : R) (m : nat) (x : R) : Prop :=
  x <= s_side S m \/ exists j, (j <= m)%nat /\ s_side S j - s_side S m < x <= s_side S j.
Lemma seen_cell : forall S m x i, 0 < S -> 0 <= x <= S -> s_ladder S m x -> (s_seen S m x i <-> s_cell1 S m x i).
Proof.
  intros S m x i P X L. rewrite (seen_digs m S x i P).
  assert (EX : exists z, s_cell1 S m x z /\ s_seen S m x z).
  { pose proof (side_pow S m) as SP. pose proof (side_pos S m P) as SM.
    assert (PW : (1 <= 2 ^ Z.of_nat m)%Z) by (pose proof (Z.pow_pos_nonneg 2 (Z.of_nat m)); lia).
    assert (Q : x <= s_side S m \/ exists j, (j < m)%nat /\ s_side S j - s_side S m < x <= s_side S j).
    { destruct L as [L|[j [J L]]]; auto. destruct (Nat.eq_dec j m) as [-> |N]; [left; lra|right]. exists j. split; [lia|auto]. }
    destruct Q as [Q|[j [J Q]]].
    - exists 0%Z. split.
      + split; [lia|]. split; [left; auto|right; lra].
      + exists m. rewrite Nat.sub_diag. cbn. auto.
    - assert (SJ : s_side S j = s_side S m * 2 ^ (m - j)).
      { unfold s_side. replace m with ((m - j) + j)%nat at 1 by lia. rewrite pow_add. field. split; apply pow_nonzero; lra. }
      exists (2 ^ Z.of_nat (m - j) - 1)%Z.
      assert (PJ : (1 <= 2 ^ Z.of_nat (m - j) <= 2 ^ Z.of_nat m)%Z).
      { split; [pose proof (Z.pow_pos_nonneg 2 (Z.of_nat (m - j))); lia|]. apply Z.pow_le_mono_r; lia. }
      split.
      + split; [lia|]. rewrite minus_IZR, pow2_IZR. split; right; lra.
      + exists j. split; [lia|]. split; auto. split; [right; lra|right].
        assert (M : s_side S m <= s_side S (Datatypes.S j)) by (apply side_mono; auto; lia). rewrite (side_half S j) in *. lra. }
  destruct EX as [z [Z1 Z2]]. apply (seen_digs m S x z P) in Z2. split; intros H.
  - subst i. rewrite <- Z2. exact Z1.
  - rewrite (cell1_uniq S m x i z P H Z1). exact Z2.
Qed.
Lemma side_inj : forall S j k, 0 < S -> s_side S j = s_side S k -> j = k.
Proof.
  assert (K : forall S j k, 0 < S -> (j < k)%nat -> s_side S k < s_side S j).
  { intros S j k P L. apply Rle_lt_trans with (s_side S (Datatypes.S j)); [apply side_mono; auto; lia|]. rewrite side_half. pose proof (side_pos S j P). lra. }
  intros S j k P E. destruct (Nat.lt_trichotomy j k) as [L|[L|L]]; auto; pose proof (K S _ _ P L); lra.
Qed.
Lemma cube_inj : forall S k i j l k' i' j' l', 0 < S ->
  box_make (s_cmin (off_of S) S k i j l) (s_cmax (off_of S) S k i j l) = box_make (s_cmin (off_of S) S k' i' j' l') (s_cmax (off_of S) S k' i' j' l') ->
  k = k' /\ i = i' /\ j = j' /\ l = l'.
Proof.
  intros S k i j l k' i' j' l' P H. pose proof (f_equal b_min H) as A. pose proof (f_equal b_max H) as B. cbn [box_make b_min b_max] in A, B.
  pose proof (f_equal vx A) as A1. pose proof (f_equal vy A) as A2. pose proof (f_equal vz A) as A3. pose proof (f_equal vx B) as B1.
  unfold s_cmin, s_cmax in *. cbn [vx vy vz] in *. assert (s_side S k = s_side S k') by lra.
  assert (k = k') by (apply (side_inj S); auto). subst k'. split; auto. pose proof (side_pos S k P).
  repeat split; apply eq_IZR; apply (Rmult_eq_reg_l (s_side S k)); lra.
Qed.
(** missing: points that are not on the ladder, where the answer is wrong in both directions (below) *)
Theorem C42_ladder_partial : forall S o p m, 0 < S -> s_reach S o ->
  (forall c, In c (oct_cubes o []) -> exists i j l, c = box_make (s_cmin (off_of S) S m i j l) (s_cmax (off_of S) S m i j l)) ->
  s_ladder S m (vx p - vx (off_of S)) -> s_ladder S m (vy p - vy (off_of S)) -> s_ladder S m (vz p - vz (off_of S)) ->
  (oct_contains o p = true <-> s_in_box (off_of S) (max_of S) p /\ exists c, In c (oct_cubes o []) /\ s_in_cell (off_of S) (b_min c) (b_max c) p).
Proof.
  intros S o p m P R U L1 L2 L3. rewrite (C42_exact S o p P R).
  assert (V : forall i j l, In (box_make (s_cmin (off_of S) S m i j l) (s_cmax (off_of S) S m i j l)) (oct_cubes o []) ->
    (0 <= i < 2 ^ Z.of_nat m)%Z /\ (0 <= j < 2 ^ Z.of_nat m)%Z /\ (0 <= l < 2 ^ Z.of_nat m)%Z).
  { intros i j l H. destruct (reach_inv _ _ P R) as [_ I2 _ I4 _ _]. unfold oct_cubes in H. cbn [app] in H. rewrite I2 in H.
    apply (cubes_in _ _ _ _ I4) in H. destruct H as [path [_ E]]. apply cube_inj in E; auto. destruct E as [-> [-> [-> ->]]]. apply path_valid. }
  assert (AX : forall x i, - S/2 <= x <= S/2 -> s_ladder S m (x - - S/2) -> (0 <= i < 2 ^ Z.of_nat m)%Z ->
    (s_seen S m (x - - S/2) i <-> s_in_cell1 (- S/2) (- S/2 + s_side S m * IZR i) (- S/2 + s_side S m * (IZR i + 1)) x)).
  { intros x i X L I. rewrite (seen_cell S m (x - - S/2) i P ltac:(lra) L). pose proof (side_pow S m) as SP. pose proof (side_pos S m P) as SM. unfold s_cell1, s_in_cell1. split.
    - intros [_ [A B]]. split; [destruct B as [-> |B]; [rewrite minus_IZR, pow2_IZR; nra|lra]|]. destruct A as [-> |A]; [right; lra|left; lra].
    - intros [A B]. split; auto. split; [|right; lra]. destruct B as [B|[B _]]; [right; lra|left]. apply eq_IZR. apply (Rmult_eq_reg_l (s_side S m)); lra. }
  unfold off_of, max_of in *. cbn [vx vy vz] in *. split; intros [B H]; split; auto; pose proof B as [B1 [B2 B3]]; cbn [vx vy vz] in *.
  - destruct H as [k [i [j [l [IN [X [Y Z]]]]]]]. pose proof IN as IN'. destruct (U _ IN) as [i' [j' [l' E]]].
    apply (cube_inj S k i j l m i' j' l' P) in E. destruct E as [-> [-> [-> ->]]]. eexists. split; [exact IN|].
    destruct (V _ _ _ IN) as [V1 [V2 V3']]. cbn [box_make b_min b_max]. unfold s_in_cell, s_cmin, s_cmax. cbn [vx vy vz].
    rewrite <- !AX by auto. auto.
  - destruct H as [c [IN CE]]. destruct (U _ IN) as [i [j [l ->]]]. exists m, i, j, l. split; auto. destruct (V _ _ _ IN) as [V1 [V2 V3']].
    cbn [box_make b_min b_max] in CE. unfold s_in_cell, s_cmin, s_cmax in CE. cbn [vx vy vz] in CE. rewrite !AX by auto. exact CE.
Qed.
(** with at most two cells per axis every point is on the ladder *)
Theorem C42_two_levels_partial : forall S o p m, 0 < S -> s_reach S o -> (m <= 1)%nat ->
  (forall c, In c (oct_cubes o []) -> exists i j l, c = box_make (s_cmin (off_of S) S m i j l) (s_cmax (off_of S) S m i j l)) ->
  (oct_contains o p = true <-> s_in_box (off_of S) (max_of S) p /\ exists c, In c (oct_cubes o []) /\ s_in_cell (off_of S) (b_min c) (b_max c) p).
Proof.
  intros S o p m P R M U.
  assert (B : s_in_box (off_of S) (max_of S) p \/ ~ s_in_box (off_of S) (max_of S) p).
  { unfold s_in_box. destruct (Rle_dec (vx (off_of S)) (vx p)), (Rle_dec (vx p) (vx (max_of S))), (Rle_dec (vy (off_of S)) (vy p)),
      (Rle_dec (vy p) (vy (max_of S))), (Rle_dec (vz (off_of S)) (vz p)), (Rle_dec (vz p) (vz (max_of S))); (left; lra) || (right; lra). }
  destruct B as [B|B].
  - assert (L : forall x, - S/2 <= x <= S/2 -> s_ladder S m (x - - S/2)).
    { intros x X. unfold s_ladder. destruct m as [|[|m]]; [| |lia].
      - left. rewrite side_0. lra.
      - destruct (Rle_dec (x - - S/2) (s_side S 1)) as [Y|Y]; [left; auto|right]. exists 0%nat. split; [lia|]. unfold s_side in *. cbn [pow] in *. lra. }
    apply C42_ladder_partial with (m := m); auto; apply L; destruct B as [B1 [B2 B3]]; unfold off_of, max_of in *; cbn [vx vy vz] in *; lra.
  - rewrite (C42_exact S o p P R). tauto.
Qed.
(** side 4, resolution 1: the point just added is not found; a point in an empty cell is found *)
Definition dv (x y z : Z) : vec3 F64 := V3 (nlit x 10) (nlit y 10) (nlit z 10).
Theorem C42_missed_refuted : exists o0 o, oct_new 20 (fz 4) (fz 1) = Ret o0 /\ oct_add 20 o0 (dv 5 (-15) (-15)) = Ret o /\
  oct_contains o (dv 5 (-15) (-15)) = false.
Proof.
  destruct (oret_ex _ (oct_new 20 (fz 4) (fz 1)) (fun o0 => oret_chk (oct_add 20 o0 (dv 5 (-15) (-15))) (fun o => negb (oct_contains o (dv 5 (-15) (-15)))))) as [o0 [N C]];
    [vm_compute; reflexivity|]. apply oret_ex in C. destruct C as [o [A C]]. exact (ex_intro _ o0 (ex_intro _ o (conj N (conj A (negb_f _ C))))).
Qed.
Theorem C42_phantom_refuted : exists o0 o c, oct_new 20 (fz 4) (fz 1) = Ret o0 /\ oct_add 20 o0 (dv 15 (-15) (-15)) = Ret o /\
  oct_cubes o [] = [c] /\ box_contains c (dv 5 (-15) (-15)) = false /\ oct_contains o (dv 5 (-15) (-15)) = true.
Proof.
  destruct (oret_ex _ (oct_new 20 (fz 4) (fz 1)) (fun o0 => oret_chk (oct_add 20 o0 (dv 15 (-15) (-15)))
    (fun o => single (oct_cubes o []) (fun c => negb (box_contains c (dv 5 (-15) (-15))) && oct_contains o (dv 5 (-15) (-15)))))) as [o0 [N C]];
    [vm_compute; reflexivity|]. apply oret_ex in C. destruct C as [o [A C]]. apply single_ex in C. destruct C as [c [E C]].
  apply andb_prop in C. destruct C as [C1 C2]. exact (ex_intro _ o0 (ex_intro _ o (ex_intro _ c (conj N (conj A (conj E (conj (negb_f _ C1) C2))))))).
Qed.
Example C42_nonvacuous : exists o, s_reach 4 o /\
  (forall c, In c (oct_cubes o []) -> exists i j l, c = box_make (s_cmin (off_of 4) 4 2 i j l) (s_cmax (off_of 4) 4 2 i j l)) /\
  s_ladder 4 2 (vx ex_p - vx (off_of 4)) /\ oct_contains o ex_p = true.
Proof.
  destruct ex_reach as [o [R [_ C]]]. pose proof side42 as S42. exists o. split; auto.
  assert (U : forall c, In c (oct_cubes o []) -> exists i j l, c = box_make (s_cmin (off_of 4) 4 2 i j l) (s_cmax (off_of 4) 4 2 i j l)).
  { intros c IN. apply C in IN. destruct IN as [-> | ->].
    - exists 3%Z, 3%Z, 3%Z. unfold ex_c, s_cmin, s_cmax, off_of. rewrite S42. cbn [vx vy vz]. f_equal; apply V3_eq; lra.
    - exists 0%Z, 2%Z, 0%Z. unfold ex_c2, s_cmin, s_cmax, off_of. rewrite S42. cbn [vx vy vz]. f_equal; apply V3_eq; lra. }
  assert (L : s_ladder 4 2 (3/2 - - 4/2)).
  { right. exists 0%nat. split; [lia|]. rewrite S42, side_0. lra. }
  split; auto. split; [exact L|]. apply (C42_ladder_partial 4 o ex_p 2 ltac:(lra) R U); [exact L..|]. split.
  - unfold s_in_box, off_of, max_of, ex_p. cbn [vx vy vz]. lra.
  - exists ex_c. split; [apply C; auto|]. unfold s_in_cell, s_in_cell1, ex_c, ex_p. cbn [box_make b_min b_max vx vy vz]. lra.
Qed.
Print Assumptions C42_exact.
Print Assumptions C42_ladder_partial.
Print Assumptions C42_two_levels_partial.
Print Assumptions C42_missed_refuted.
Print Assumptions C42_phantom_refuted.

(** ** C43 *)
Theorem C43_overlap : forall S o b, 0 < S -> s_reach S o -> s_ordered (b_min b) (b_max b) ->
  (oct_box o b = true <-> exists c p, In c (oct_cubes o []) /\ s_in_box (b_min b) (b_max b) p /\ s_in_cell (off_of S) (b_min c) (b_max c) p).
Proof.
  intros S o b P R B. pose proof (reach_inv _ _ P R) as I. pose proof (oct_box_spec S o b P I B) as C. destruct I as [_ I2 _ _ _ _]. rewrite I2 in C. exact C.
Qed.
Example C43_nonvacuous : exists o, s_reach 4 o /\ oct_box o (box_make (V3 (1/2) (1/2) (1/2)) (V3 (5/4) 5 5)) = true /\
  oct_box o (box_make (V3 (-1) 0 0) (V3 1 1 1)) = false.
Proof.
  destruct ex_reach as [o [R [_ C]]]. exists o. split; auto. split.
  - apply (C43_overlap 4 o _ ltac:(lra) R); [unfold s_ordered; cbn [box_make b_min b_max vx vy vz]; lra|]. exists ex_c, (V3 (5/4) 2 2). split; [apply C; auto|].
    unfold s_in_box, s_in_cell, s_in_cell1, ex_c. cbn [box_make b_min b_max vx vy vz]. lra.
  - destruct (oct_box _ _) eqn:E; auto. exfalso. apply (C43_overlap 4 o _ ltac:(lra) R) in E; [|unfold s_ordered; cbn [box_make b_min b_max vx vy vz]; lra].
    destruct E as [c [p [IN [A B]]]]. apply C in IN. unfold s_in_box, s_in_cell, s_in_cell1 in *. unfold off_of in *. 
    destruct IN as [-> | ->]; unfold ex_c, ex_c2 in *; cbn [box_make b_min b_max vx vy vz] in *; lra.
Qed.
Print Assumptions C43_overlap.

(** ** C44 *)
(** missing: the limit t1 and the reported distance (both refuted below), rays with a component of the unit direction below
    1e-9, chords of at most a tenth of the resolution, start distances t0 <> 0 from outside; termination only over the reals *)
Theorem C44_ray_partial : forall S o, 0 < S -> s_reach S o -> exists F, forall fuel, (F <= fuel)%nat -> forall org d t0 t1 d0,
  s_general_dir d -> t0 < t1 ->
  exists h x, oct_ray fuel o (ray_make org d) t0 t1 d0 = Ret (h, x) /\
  (h = true -> exists c t, In c (oct_cubes o []) /\ t0 < t /\ s_in_box (b_min c) (b_max c) (s_ray_at org (s_unit d) t) /\
     (x = d0 \/ t = x + o_res o * (1/10)) /\
     (start_ok o org t0 -> forall c' a b, In c' (oct_cubes o []) -> bchord c' org (s_unit d) a b -> t0 <= a -> b <= t -> b - a <= o_res o * (1/10))) /\
  (h = false -> start_ok o org t0 -> forall c a b, In c (oct_cubes o []) -> bchord c org (s_unit d) a b -> t0 <= a < t1 -> b - a <= o_res o * (1/10)).
Proof.
  intros S o P R. destruct (oct_ray_spec S o P (reach_inv _ _ P R)) as [F H]. exists F. intros fuel L org d t0 t1 d0 G T.
  destruct (H fuel L org d t0 t1 d0 (or_introl G)) as [h [x [E [A [B _]]]]]. exists h, x. split; auto. split; [intros Hh; apply A; auto|intros Hh; apply B; auto].
Qed.
(** a ray with a direction component below 1e-9 never hits *)
Theorem C44_parallel_never_hits : forall S o, 0 < S -> s_reach S o -> exists F, forall fuel, (F <= fuel)%nat -> forall org d t0 t1 d0,
  ~ s_general_dir d -> 0 <= t0 -> exists x, oct_ray fuel o (ray_make org d) t0 t1 d0 = Ret (false, x).
Proof.
  intros S o P R. destruct (oct_ray_spec S o P (reach_inv _ _ P R)) as [F H]. exists F. intros fuel L org d t0 t1 d0 G T.
  destruct (H fuel L org d t0 t1 d0 (or_intror T)) as [h [x [E [_ [_ N]]]]]. rewrite (N G) in E. eauto.
Qed.
(** doubles, side 4, resolution 1 *)
Definition dray (ox oy oz dx dy dz : Z) : ray F64 := ray_make (dv ox oy oz) (dv dx dy dz).
Theorem C44_parallel_refuted : exists o0 o c, oct_new 20 (fz 4) (fz 1) = Ret o0 /\ oct_add 20 o0 (dv (-15) (-15) (-15)) = Ret o /\ oct_cubes o [] = [c] /\
  fst (box_ray c (dray (-30) (-15) (-15) 10 0 0) (fz 0) (fz 30) (fz 77)) = false /\ box_contains c (dv (-15) (-15) (-15)) = true /\
  oret_chk (oct_ray 100 o (dray (-30) (-15) (-15) 10 0 0) (fz 0) (fz 30) (fz 77)) (fun '(h, x) => negb h) = true.
Proof.
  destruct (oret_ex _ (oct_new 20 (fz 4) (fz 1)) (fun o0 => oret_chk (oct_add 20 o0 (dv (-15) (-15) (-15)))
    (fun o => single (oct_cubes o []) (fun c => negb (fst (box_ray c (dray (-30) (-15) (-15) 10 0 0) (fz 0) (fz 30) (fz 77))) && (box_contains c (dv (-15) (-15) (-15)) &&
       oret_chk (oct_ray 100 o (dray (-30) (-15) (-15) 10 0 0) (fz 0) (fz 30) (fz 77)) (fun '(h, x) => negb h)))))) as [o0 [N C]];
    [vm_compute; reflexivity|]. apply oret_ex in C. destruct C as [o [A C]]. apply single_ex in C. destruct C as [c [E C]].
  apply andb_prop in C. destruct C as [C1 C2]. apply andb_prop in C2. destruct C2 as [C2 C3].
  exact (ex_intro _ o0 (ex_intro _ o (ex_intro _ c (conj N (conj A (conj E (conj (negb_f _ C1) (conj C2 C3)))))))).
Qed.
(** the limit t1 = 3 is ignored: the cell hit is reached only after distance 6 *)
Theorem C44_limit_refuted : exists o0 o c x, oct_new 20 (fz 4) (fz 1) = Ret o0 /\ oct_add 20 o0 (dv 15 15 15) = Ret o /\ oct_cubes o [] = [c] /\
  fst (box_ray c (dray (-30) (-29) (-28) 10 10 10) (fz 0) (fz 3) (fz 77)) = false /\
  oct_ray 100 o (dray (-30) (-29) (-28) 10 10 10) (fz 0) (fz 3) (fz 77) = Ret (true, x) /\ nltb (fz 6) x = true.
Proof.
  destruct (oret_ex _ (oct_new 20 (fz 4) (fz 1)) (fun o0 => oret_chk (oct_add 20 o0 (dv 15 15 15))
    (fun o => single (oct_cubes o []) (fun c => negb (fst (box_ray c (dray (-30) (-29) (-28) 10 10 10) (fz 0) (fz 3) (fz 77))) &&
       oret_chk (oct_ray 100 o (dray (-30) (-29) (-28) 10 10 10) (fz 0) (fz 3) (fz 77)) (fun p => hit_chk p (fun x => nltb (fz 6) x)))))) as [o0 [N C]];
    [vm_compute; reflexivity|]. apply oret_ex in C. destruct C as [o [A C]]. apply single_ex in C. destruct C as [c [E C]].
  apply andb_prop in C. destruct C as [C1 C2]. apply oret_ex in C2. destruct C2 as [q [C2 C3]]. apply hit_ex in C3. destruct C3 as [x [Q C3]].
  exact (ex_intro _ o0 (ex_intro _ o (ex_intro _ c (ex_intro _ x (conj N (conj A (conj E (conj (negb_f _ C1) (conj (eq_trans C2 (f_equal Ret Q)) C3))))))))).
Qed.
(** a hit in the first cell sampled leaves the distance parameter untouched (here 77; the cell is entered before 2) *)
Theorem C44_distance_refuted : exists o0 o c x y, oct_new 20 (fz 4) (fz 1) = Ret o0 /\ oct_add 20 o0 (dv (-15) (-15) (-15)) = Ret o /\ oct_cubes o [] = [c] /\
  box_ray c (dray (-30) (-29) (-28) 10 10 10) (fz 0) (fz 30) (fz 77) = (true, y) /\ nltb y (fz 2) = true /\
  oct_ray 100 o (dray (-30) (-29) (-28) 10 10 10) (fz 0) (fz 30) (fz 77) = Ret (true, x) /\ neqb x (fz 77) = true.
Proof.
  destruct (oret_ex _ (oct_new 20 (fz 4) (fz 1)) (fun o0 => oret_chk (oct_add 20 o0 (dv (-15) (-15) (-15)))
    (fun o => single (oct_cubes o []) (fun c => hit_chk (box_ray c (dray (-30) (-29) (-28) 10 10 10) (fz 0) (fz 30) (fz 77)) (fun y => nltb y (fz 2)) &&
       oret_chk (oct_ray 100 o (dray (-30) (-29) (-28) 10 10 10) (fz 0) (fz 30) (fz 77)) (fun p => hit_chk p (fun x => neqb x (fz 77))))))) as [o0 [N C]];
    [vm_compute; reflexivity|]. apply oret_ex in C. destruct C as [o [A C]]. apply single_ex in C. destruct C as [c [E C]].
  apply andb_prop in C. destruct C as [C1 C2]. apply oret_ex in C2. destruct C2 as [q [C2 C3]]. apply hit_ex in C3. destruct C3 as [x [Q C3]].
  apply hit_ex in C1. destruct C1 as [y [BR C1]].
  exact (ex_intro _ o0 (ex_intro _ o (ex_intro _ c (ex_intro _ x (ex_intro _ y (conj N (conj A (conj E (conj BR (conj C1 (conj (eq_trans C2 (f_equal Ret Q)) C3))))))))))).
Qed.
(** over doubles the sampling distance is a float: far from the origin it stops growing and the call never returns *)
Definition far : ray F64 := let x := (nofZ (-20000000) + nlit 14 10)%num in ray_make (V3 x x x) (dv 10 10 10).
Lemma new_root : forall f (S req : F64) o, oct_new f S req = Ret o -> o_root o = node_new S.
Proof. intros f S req o N. unfold oct_new, oct_setRes in N. destruct (halve _ _ _); try discriminate. injection N as <-. reflexivity. Qed.
Lemma stuck : forall (res : F64) s sp r t0 t1, 
  let o := vadd (r_o r) (vscale (r_d r) t0) in let bx := nleb sp (vx o) in let by_ := nleb sp (vy o) in let bz := nleb sp (vz o) in
  let dv := V3 (sel bx sp) (sel by_ sp) (sel bz sp) in
  outside o s = false -> nf32 (node_exit s dv o (r_d r) t0 t1 + res * nlit 1 10)%num = t0 ->
  forall fuel d, node_ray fuel res (Node s sp false (fun _ _ _ => Null)) r t0 t1 d = Fuel.
Proof.
  intros res s sp r t0 t1 o bx by_ bz v O E. induction fuel as [|f IH]; intros d; auto. cbn [node_ray]. fold o. rewrite O. fold bx by_ bz v. cbn [obind].
  rewrite E. apply IH.
Qed.
Theorem C44_returns_refuted : exists o, oct_new 20 (fz 4) (fz 1) = Ret o /\ forall fuel, oct_ray fuel o far (fz 0) (fz 1000000000) (fz 0) = Fuel.
Proof.
  destruct (oret_ex _ (oct_new 20 (fz 4) (fz 1)) (fun o => let (h, dist) := box_ray (box_make (o_off o) (o_max o)) far (fz 0) (fz 1000000000) (n0/n0)%num in
     let t0 := nf32 (fz 0 + nmax dist n0 + (o_res o * nlit 1 10))%num in let r := ray_make (vsub (r_o far) (o_off o)) (r_d far) in
     match o_root o with
     | Node s sp false _ =>
       let p := vadd (r_o r) (vscale (r_d r) t0) in let v := V3 (sel (nleb sp (vx p)) sp) (sel (nleb sp (vy p)) sp) (sel (nleb sp (vz p)) sp) in
       h && (negb (outside p s) && feqb (nf32 (node_exit s v p (r_d r) t0 (fz 1000000000) + o_res o * nlit 1 10)%num) t0)
     | _ => false end)) as [o [N C]]; [vm_compute; reflexivity|]. exists o. split; auto.
  assert (RT : o_root o = node_new (fz 4)) by (exact (new_root _ _ _ _ N)).
  intros fuel. unfold oct_ray. destruct (box_ray _ _ _ _ _) as [h dist]. rewrite RT in *. unfold node_new in *. cbv zeta in C.
  apply andb_prop in C. destruct C as [-> C]. apply andb_prop in C. destruct C as [C1 C2]. cbn [negb]. apply negb_true_iff in C1. apply feqb_eq in C2.
  apply stuck; [exact C1|exact C2].
Qed.
Example C44_nonvacuous : exists o, s_reach 4 o /\ s_general_dir (V3 1 1 1) /\ In ex_c (oct_cubes o []) /\ start_ok o (V3 (-3) (-3) (-3)) 0 /\
  bchord ex_c (V3 (-3) (-3) (-3)) (s_unit (V3 1 1 1)) (4 * sqrt 3) (5 * sqrt 3).
Proof.
  destruct ex_reach as [o [R [_ C]]]. exists o. split; auto.
  assert (Q : 1 < sqrt 3) by (rewrite <- sqrt_1 at 1; apply sqrt_lt_1; lra). assert (Q2 : sqrt 3 * sqrt 3 = 3) by (apply sqrt_sqrt; lra).
  assert (U : s_unit (V3 1 1 1) = V3 (1 / sqrt 3) (1 / sqrt 3) (1 / sqrt 3)).
  { assert (NN : s_norm (V3 1 1 1) = sqrt 3) by (unfold s_norm, s_dot; cbn [vx vy vz]; f_equal; lra). unfold s_unit. rewrite NN. reflexivity. }
  assert (H : sqrt 3 < 2) by nra. assert (I : 1/2 < 1 / sqrt 3). { apply Rmult_lt_reg_r with (sqrt 3); [lra|]. field_simplify; lra. }
  split; [|split; [apply C; auto|split; [left; auto|]]].
  - unfold s_general_dir. rewrite U. cbn [vx vy vz]. rewrite Rabs_right; lra.
  - split; [nra|]. intros t T. unfold strict, s_ray_at, ex_c. rewrite U. cbn [vx vy vz box_make b_min b_max].
    assert (4 < t * (1 / sqrt 3) < 5). { split; apply Rmult_lt_reg_r with (sqrt 3); try lra; field_simplify; lra. } lra.
Qed.
Print Assumptions C44_ray_partial.
Print Assumptions C44_parallel_never_hits.
Print Assumptions C44_parallel_refuted.
Print Assumptions C44_limit_refuted.
Print Assumptions C44_distance_refuted.
Print Assumptions C44_returns_refuted.

(** ** C45 *)
(** every ray, any direction, any t0 and t1: what remains was there or is the cell of the end point; what disappears was crossed;
    the end point's cell (clamped into the octree) is covered when the octree's box is hit, and nothing changes when it is not *)
Theorem C45_raytrace : forall S o, 0 < S -> s_reach S o -> forall org d t0 t1,
  exists F, forall fuel, (F <= fuel)%nat ->
  exists o', oct_raytrace fuel o (ray_make org d) t0 t1 = Ret o' /\ s_reach S o' /\ o_res o' = o_res o /\
  let ray t := s_ray_at org (s_unit d) t in
  let cubes := oct_cubes o [] in let cubes' := oct_cubes o' [] in
  let hit := fst (box_ray (box_make (off_of S) (max_of S)) (ray_make org d) t0 t1 (n0 / n0)%num) in
  (forall c, In c cubes' -> (exists c0, In c0 cubes /\ inside c c0) \/ end_cell S o (ray t1) c) /\
  (forall c, In c cubes -> ~ (exists c', In c' cubes' /\ inside c c') -> exists t, t0 <= t <= t1 /\ s_in_box (b_min c) (b_max c) (ray t)) /\
  (hit = true -> exists c c', end_cell S o (ray t1) c /\ In c' cubes' /\ inside c c') /\
  (hit = false -> o' = o) /\
  (s_general_dir d -> start_ok o org t0 -> forall c a b, In c cubes -> bchord c org (s_unit d) a b ->
     t0 <= a -> a + o_res o * (1/10) <= t1 -> o_res o * (1/10) < b - a -> In c cubes' -> end_cell S o (ray t1) c).
Proof.
  intros S o P R org d t0 t1. pose proof (reach_inv _ _ P R) as I. destruct (oct_raytrace_spec S o P I org d t0 t1) as [F H].
  destruct R as [f0 [req [ops [o0 [N RUN]]]]]. exists F. intros fuel L. destruct (H fuel L) as [o' [E [I' [ER K]]]]. exists o'. split; auto. split; [|split; auto].
  - exists (f0 + fuel)%nat, req, (ops ++ [ORaytrace (ray_make org d) t0 t1]), o0. split.
    + unfold oct_new, oct_setRes in *. cbn [o_size] in *. destruct (halve f0 S req) as [x| | |] eqn:EH; try discriminate. rewrite (halve_fuel f0 (f0 + fuel)%nat S req x ltac:(lia) EH). exact N.
    + apply (run_fuel f0 (f0 + fuel)%nat) in RUN; [|lia]. revert RUN. generalize o0. clear -E. induction ops as [|op ops IH]; intros o1 RUN; cbn [oct_run app] in *.
      * injection RUN as <-. cbn [oct_step]. assert (X : oct_step (f0 + fuel) o1 (ORaytrace (ray_make org d) t0 t1) = Ret o') by (apply (step_fuel fuel (f0 + fuel)%nat o1 (ORaytrace (ray_make org d) t0 t1) o' ltac:(lia) E)).
        cbn [oct_step] in X. rewrite X. reflexivity.
      * destruct (oct_step _ o1 op); try discriminate. cbn [obind] in *. apply IH, RUN.
  - cbv zeta in K |- *. destruct I as [_ I2 I3 _ _ _]. rewrite I2, I3 in K. exact K.
Qed.
(** octrees from histories over doubles: the same stall as in C44 *)
Lemma stuck_raytrace : forall (res : F64) s sp o d t0 t1,
  let newo := vadd o (vscale d t0) in let bx := nleb sp (vx newo) in let by_ := nleb sp (vy newo) in let bz := nleb sp (vz newo) in
  let dv := V3 (sel bx sp) (sel by_ sp) (sel bz sp) in
  nltb t1 t0 = false -> outside newo s = false -> nf32 (node_exit s dv newo d t0 t1 + res * nlit 1 10)%num = t0 ->
  forall fuel, node_raytrace fuel res (Node s sp false (fun _ _ _ => Null)) o d t0 t1 = Fuel.
Proof.
  intros res s sp o d t0 t1 newo bx by_ bz v LT O E. induction fuel as [|f IH]; auto. cbn [node_raytrace]. fold newo. rewrite LT, O. fold bx by_ bz v. cbn [obind].
  rewrite E. apply IH.
Qed.
Theorem C45_may_not_return : exists o, oct_new 20 (fz 4) (fz 1) = Ret o /\ forall fuel, oct_raytrace fuel o far (fz 0) (fz 1000000000) = Fuel.
Proof.
  destruct (oret_ex _ (oct_new 20 (fz 4) (fz 1)) (fun o => let (h, dist) := box_ray (box_make (o_off o) (o_max o)) far (fz 0) (fz 1000000000) (n0/n0)%num in
     let t0 := nf32 (fz 0 + nmax dist n0 + (o_res o * nlit 1 10))%num in
     match o_root o with
     | Node s sp false _ =>
       let p := vadd (vsub (r_o far) (o_off o)) (vscale (r_d far) t0) in let v := V3 (sel (nleb sp (vx p)) sp) (sel (nleb sp (vy p)) sp) (sel (nleb sp (vz p)) sp) in
       h && (negb (nltb (fz 1000000000) t0) && (negb (outside p s) && feqb (nf32 (node_exit s v p (r_d far) t0 (fz 1000000000) + o_res o * nlit 1 10)%num) t0))
     | _ => false end)) as [o [N C]]; [vm_compute; reflexivity|]. exists o. split; auto.
  assert (RT : o_root o = node_new (fz 4)) by (exact (new_root _ _ _ _ N)).
  intros fuel. unfold oct_raytrace. destruct (box_ray _ _ _ _ _) as [h dist]. rewrite RT in *. unfold node_new in *. cbv zeta in C.
  apply andb_prop in C. destruct C as [-> C]. apply andb_prop in C. destruct C as [C0 C]. apply andb_prop in C. destruct C as [C1 C2]. cbn [negb].
  rewrite stuck_raytrace; [reflexivity|exact (negb_f _ C0)|exact (negb_f _ C1)|exact (feqb_eq _ _ C2)].
Qed.
Example C45_nonvacuous : exists o, s_reach 4 o /\ exists F, forall fuel, (F <= fuel)%nat -> exists o', oct_raytrace fuel o (ray_make (V3 (-3) (-3) (-3)) (V3 1 1 1)) 0 10 = Ret o' /\
  (In ex_c (oct_cubes o' []) -> end_cell 4 o (s_ray_at (V3 (-3) (-3) (-3)) (s_unit (V3 1 1 1)) 10) ex_c) /\ exists c, In c (oct_cubes o' []) /\ inside ex_c2 c.
Proof.
  destruct C44_nonvacuous as [o0 [_ [G [_ [_ B]]]]]. destruct ex_reach as [o [R [R1 C]]]. exists o. split; auto.
  destruct (C45_raytrace 4 o ltac:(lra) R (V3 (-3) (-3) (-3)) (V3 1 1 1) 0 10) as [F H]. exists F. intros fuel L. destruct (H fuel L) as [o' [E [_ [_ [_ [K1 [_ [_ K2]]]]]]]].
  exists o'. split; auto. assert (Q2 : sqrt 3 * sqrt 3 = 3) by (apply sqrt_sqrt; lra). assert (Q0 : 0 <= sqrt 3) by (apply sqrt_pos). split.
  - intros IN. apply (K2 G (or_introl eq_refl) ex_c (4 * sqrt 3) (5 * sqrt 3)); auto; rewrite ?R1; try (apply C; auto); nra.
  - destruct (existsb (fun c => if Rle_dec (vx (b_min c)) (-2) then if Rle_dec (-1) (vx (b_max c)) then if Rle_dec (vy (b_min c)) 0 then if Rle_dec 1 (vy (b_max c)) then
      if Rle_dec (vz (b_min c)) (-2) then if Rle_dec (-1) (vz (b_max c)) then true else false else false else false else false else false else false) (oct_cubes o' [])) eqn:EX.
    + apply existsb_exists in EX. destruct EX as [c [IN EX]]. exists c. split; auto.
      repeat match type of EX with context [Rle_dec ?a ?b] => destruct (Rle_dec a b); try discriminate end.
      intros p. unfold s_in_box, ex_c2. cbn [box_make b_min b_max vx vy vz]. lra.
    + exfalso. destruct (K1 ex_c2) as [t [T1 T2]]; [apply C; auto| |].
      * intros [c [IN INS]]. assert (X : existsb (fun c => if Rle_dec (vx (b_min c)) (-2) then if Rle_dec (-1) (vx (b_max c)) then if Rle_dec (vy (b_min c)) 0 then if Rle_dec 1 (vy (b_max c)) then
      if Rle_dec (vz (b_min c)) (-2) then if Rle_dec (-1) (vz (b_max c)) then true else false else false else false else false else false else false) (oct_cubes o' []) = true); [|congruence].
        apply existsb_exists. exists c. split; auto. pose proof (INS (V3 (-2) 0 (-2))) as A1. pose proof (INS (V3 (-1) 1 (-1))) as A2.
        unfold s_in_box, ex_c2 in A1, A2. cbn [box_make b_min b_max vx vy vz] in A1, A2.
        repeat match goal with |- context [Rle_dec ?a ?b] => destruct (Rle_dec a b); [|lra] end. auto.
      * unfold s_in_box, ex_c2, s_ray_at, s_unit in T2. cbn [box_make b_min b_max vx vy vz] in T2. lra.
Qed.
Print Assumptions C45_raytrace.
Print Assumptions C45_may_not_return.

(** ** C46 *)
(** a copy answers every query the same way and behaves the same under every later history; only the mesh cache may differ, and
    mesh queries still return the same points and triangles *)
Lemma reach_ok : forall T (NT : Num T) f f' (S req : T) ops o0 o, oct_new f S req = Ret o0 -> oct_run f' o0 ops = Ret o -> mesh_ok o.
Proof. intros. eapply mesh_run_ok; [eapply new_ok; eauto|eauto]. Qed.
Theorem C46_copy : forall (T : Type) (NT : Num T) f (S req : T) ops o0 o, oct_new f S req = Ret o0 -> oct_run f o0 ops = Ret o ->
  oct_cubes (oct_copy o) [] = oct_cubes o [] /\ o_res (oct_copy o) = o_res o /\
  (forall p, oct_contains (oct_copy o) p = oct_contains o p) /\ (forall b, oct_box (oct_copy o) b = oct_box o b) /\
  (forall fuel r t0 t1 d, oct_ray fuel (oct_copy o) r t0 t1 d = oct_ray fuel o r t0 t1 d) /\
  (forall fuel later, match oct_run fuel o later, oct_run fuel (oct_copy o) later with
     | Ret a, Ret b => oct_cubes b [] = oct_cubes a [] /\ o_res b = o_res a /\
         match oct_mesh a, oct_mesh b with
         | Ret (m, _), Ret (m', _) => m_points m' = m_points m /\ m_tris m' = m_tris m
         | UB, UB => True
         | _, _ => False
         end
     | UB, UB | Fuel, Fuel => True
     | _, _ => False
     end).
Proof.
  intros T NT f S req ops o0 o N R. pose proof (reach_ok _ _ _ _ _ _ _ _ _ N R) as OK. pose proof (node_copy_id (o_root o)) as ID.
  split; [unfold oct_cubes, oct_copy; cbn [o_root o_off]; rewrite ID; auto|]. split; auto.
  split; [intros; unfold oct_contains, oct_copy; cbn [o_root o_off o_max]; rewrite ID; auto|].
  split; [intros; unfold oct_box, oct_copy; cbn [o_root o_off o_max]; rewrite ID; auto|].
  split; [intros; unfold oct_ray, oct_copy; cbn [o_root o_off o_max o_res]; rewrite ID; auto|].
  intros fuel later. pose proof (same_run fuel later _ _ (same_copy _ OK)) as SR.
  assert (NE : oct_run fuel o later <> Exn).
  { clear. revert o. induction later as [|op r IH]; intros o; cbn [oct_run]; [discriminate|].
    assert (ST : oct_step fuel o op <> Exn).
    { assert (AD : forall g (x : node T) re p, node_add g re x p <> Exn).
      { induction g as [|g IHg]; intros x re p; cbn [node_add]; [discriminate|]. destruct x as [|s sp oc ch]; [discriminate|]. destruct (nltb _ _); [discriminate|]. cbv zeta.
        match goal with |- context [node_add g re ?c ?q] => pose proof (IHg c re q); destruct (node_add g re c q) end; cbn [obind]; congruence. }
      assert (RT : forall g (x : node T) re oo d t0 t1, node_raytrace g re x oo d t0 t1 <> Exn).
      { induction g as [|g IHg]; intros x re oo d t0 t1; cbn [node_raytrace]; [discriminate|]. destruct x as [|s sp oc ch]; [discriminate|].
        destruct (nltb _ _); [discriminate|]. cbv zeta. destruct (outside _ _); [discriminate|].
        match goal with |- context [match ?c with Null => _ | _ => _ end] => destruct c as [|s' sp' oc' ch'] eqn:EC end; cbn [obind]; [apply IHg|].
        match goal with |- context [obind (obind (node_raytrace g re ?c ?a ?b ?t ?u) _) _] => pose proof (IHg c re a b t u); destruct (node_raytrace g re c a b t u) end; cbn [obind]; first [congruence | apply IHg]. }
      assert (HV : forall g (r q : T), halve g r q <> Exn).
      { induction g as [|g IHg]; intros r0 q; cbn [halve]; [discriminate|]. destruct (nltb _ _); [apply IHg|discriminate]. }
      assert (ME : forall x : octree T, oct_mesh x <> Exn).
      { intros x. unfold oct_mesh. destruct (mesh_empty _); [|discriminate]. match goal with |- context [filterOverlapping ?m] => pose proof (proj1 (filter_cases m)); destruct (filterOverlapping m) end; cbn [obind]; congruence. }
      destruct op as [p| |q|ry t0 t1| | |mm|]; cbn [oct_step]; try discriminate.
      - unfold oct_add. pose proof (AD fuel (o_root o) (o_res o) (vsub p (o_off o))). destruct (node_add _ _ _ _); cbn [obind]; congruence.
      - unfold oct_setRes. pose proof (HV fuel (o_size o) q). destruct (halve _ _ _); cbn [obind]; congruence.
      - unfold oct_raytrace. destruct (box_ray _ _ _ _ _) as [[|] z]; cbn [negb]; [|discriminate].
        match goal with |- context [node_raytrace ?g ?re ?x ?oo ?d ?t0 ?t1] => pose proof (RT g x re oo d t0 t1); destruct (node_raytrace g re x oo d t0 t1) end; cbn [obind]; try congruence.
        unfold oct_add. cbn [o_res o_root o_off].
        match goal with |- context [node_add ?g ?re ?x ?p] => pose proof (AD g x re p); destruct (node_add g re x p) end; cbn [obind]; congruence.
      - pose proof (ME o). destruct (oct_mesh o); cbn [obind]; congruence.
      - unfold oct_bbox. destruct (s_bbv _); [destruct (shape_bbox _ _); discriminate|]. pose proof (ME o). destruct (oct_mesh o) as [[m x]| | |]; cbn [obind]; try congruence. destruct (shape_bbox _ _). discriminate. }
    destruct (oct_step fuel o op); cbn [obind]; first [congruence | apply IH]. }
  destruct (oct_run fuel o later) as [a| | |], (oct_run fuel (oct_copy o) later) as [b| | |]; try contradiction; auto; try congruence.
  cbn [osame] in SR. pose proof (same_mesh _ _ SR) as SM. destruct SR as [S1 S2 S3 S4 S5 S6 S7 S8].
  split; [unfold oct_cubes; rewrite S3, S6; auto|]. split; auto.
  destruct (oct_mesh a) as [[m x]| | |], (oct_mesh b) as [[m' x']| | |]; try contradiction; auto. destruct SM as [[A B] _]. auto.
Qed.
(** the mesh follows the stored points whatever queries and changes came before: it is the mesh a fresh copy builds *)
Theorem C46_mesh_current : forall (T : Type) (NT : Num T) f (S req : T) ops o0 o, oct_new f S req = Ret o0 -> oct_run f o0 ops = Ret o ->
  match oct_mesh o, oct_mesh (oct_copy o) with
  | Ret (m, _), Ret (m', _) => m_points m = m_points m' /\ m_tris m = m_tris m'
  | UB, UB => True
  | _, _ => False
  end.
Proof.
  intros T NT f S req ops o0 o N R. pose proof (mesh_copy _ (reach_ok _ _ _ _ _ _ _ _ _ N R)) as M.
  destruct (oct_mesh o) as [[m x]| | |], (oct_mesh (oct_copy o)) as [[m' x']| | |]; auto.
Qed.
(** over the reals: the triangles are those of the listed cubes, vertices merged on the millimetre grid *)
Lemma fold_soup : forall cs (m : mesh R) l, (forall c, In c cs -> exists mn mx, c = box_make mn mx) ->
  (N.of_nat (length (m_points m) + 8 * length cs) < 2 ^ 32)%N -> soup_of m = Some l ->
  exists ls, Forall2 (fun c s => soup_of (b_mesh c) = Some s) cs ls /\
    let m' := fold_left (fun m x => mesh_add m (b_mesh x)) cs m in
    soup_of m' = Some (l ++ concat ls) /\ m_points m' = m_points m ++ flat_map (fun c => m_points (b_mesh c)) cs.
Proof.
  induction cs as [|c cs IH]; intros m l B L M; cbn [fold_left flat_map].
  - exists []. split; [constructor|]. cbn. rewrite !app_nil_r. auto.
  - destruct (B c (or_introl eq_refl)) as [mn [mx ->]].
    destruct (box_soup mn mx) as [s [S _]].
    assert (BS : soup_of (b_mesh (box_make mn mx)) = Some s) by (unfold soup_of; rewrite box_make_points, box_make_tris; exact S).
    assert (B8 : length (m_points (b_mesh (box_make mn mx))) = 8%nat) by (rewrite box_make_points; reflexivity).
    cbn [length] in L.
    assert (A : soup_of (mesh_add m (b_mesh (box_make mn mx))) = Some (l ++ s)).
    { apply mesh_add_soup; auto. rewrite B8. lia. }
    assert (P : m_points (mesh_add m (b_mesh (box_make mn mx))) = m_points m ++ m_points (b_mesh (box_make mn mx))) by reflexivity.
    destruct (IH (mesh_add m (b_mesh (box_make mn mx))) (l ++ s)) as [ls [F [E1 E2]]]; auto.
    + intros c' C'. apply B. right. auto.
    + rewrite P, app_length, B8. lia.
    + exists (s :: ls). split; [constructor; auto|]. cbv zeta in *. rewrite E1, E2, P. cbn [concat]. rewrite <- !app_assoc. auto.
Qed.
Lemma key_ok : forall v : vec3 R, s_in_box (V3 (-2000000) (-2000000) (-2000000)) (V3 2000000 2000000 2000000) v -> vert_key v <> None.
Proof.
  intros v [V1 [V2 V3']]. cbn [vx vy vz] in *.
  assert (K : forall x, -2000000 <= x <= 2000000 -> toint (nofZ 1000 * x)%num <> None).
  { intros x X. unfold toint. unR. destruct (trunc_bounds (1000 * x)) as [[A _] _].
    assert (Rabs (1000 * x) <= 2000000000) by (unfold Rabs; destruct (Rcase_abs _); lra).
    assert (Z.abs (Raux.Ztrunc (1000 * x)) <= 2000000000)%Z. { apply le_IZR. rewrite abs_IZR. lra. }
    destruct (_ && _)%bool eqn:E; [discriminate|]. apply andb_false_iff in E. rewrite !Z.leb_gt in E. cbn in E. lia. }
  unfold vert_key. pose proof (K _ V1). pose proof (K _ V2). pose proof (K _ V3').
  destruct (toint _), (toint (nofZ 1000 * vy v)%num), (toint (nofZ 1000 * vz v)%num); congruence.
Qed.
Lemma firsts_incl : forall (l : list (vec3 R)) seen p, In p (s_firsts keyb vert_key seen l) -> In p l.
Proof.
  induction l as [|v r IH]; cbn; intros s p P; auto. destruct (existsb _ s).
  - right. eapply IH; eauto.
  - destruct P as [P|P]; [left; auto|right; eapply IH; eauto].
Qed.
Lemma cube_is_box : forall S o c, 0 < S -> oinv S o -> In c (oct_cubes o []) -> exists mn mx, c = box_make mn mx /\ s_ordered mn mx /\
  forall p, s_in_box mn mx p -> s_in_box (off_of S) (max_of S) p.
Proof.
  intros S o c P [I1 I2 I3 I4 I5 I6] IN. unfold oct_cubes in IN. cbn [app] in IN. rewrite I2 in IN. apply (cubes_in _ _ _ _ I4) in IN. destruct IN as [path [_ ->]].
  exists (pmin (off_of S) S path), (pmax (off_of S) S path). split; auto. split.
  - unfold s_ordered, pmin, pmax, s_cmin, s_cmax. cbn [vx vy vz]. pose proof (side_pos S (length path) P). lra.
  - intros p [B1 [B2 B3]]. destruct (path_bounds (off_of S) S path P) as [C1 [C2 [C3 [C4 [C5 C6]]]]]. rewrite max_is in *. unfold s_in_box. lra.
Qed.
Theorem C46_mesh_content : forall S o, 0 < S <= 4000000 -> s_reach S o -> (N.of_nat (8 * length (oct_cubes o [])) < 2 ^ 32)%N ->
  exists m o' ls l', oct_mesh o = Ret (m, o') /\ Forall2 (fun c l => soup_of (b_mesh c) = Some l) (oct_cubes o []) ls /\ soup_of m = Some l' /\
  (let near (p q : vec3 R) := forall g, (g = vx \/ g = vy \/ g = vz) -> Rabs (g p - g q) < 2 / 1000 in
   Forall2 (fun '(a, b, c) '(a', b', c') => near a a' /\ near b b' /\ near c c') (concat ls) l') /\
  (forall p, In p (m_points m) -> exists c, In c (oct_cubes o []) /\ In p (m_points (b_mesh c))) /\
  NoDup (map vert_key (m_points m)).
Proof.
  intros S o [P PU] R L. pose proof (reach_inv _ _ P R) as I. destruct R as [f [req [ops [o0 [N RUN]]]]]. pose proof (reach_ok _ _ _ _ _ _ _ _ _ N RUN) as OK. clear N RUN.
  destruct (fold_soup (oct_cubes o []) mesh_new []) as [ls [F [E1 E2]]]; [|cbn [mesh_new invalidate m_points length]; lia|reflexivity|].
  { intros c IN. destruct (cube_is_box _ _ _ P I IN) as [mn [mx [E _]]]. eauto. }
  cbv zeta in E1, E2. cbn [mesh_new invalidate m_points app] in E1, E2. fold (mesh_new : mesh R) in E1, E2.
  set (m0 := fold_left _ _ _) in *.
  assert (LP : (N.of_nat (length (m_points m0)) < 2 ^ 32)%N).
  { rewrite E2. assert (X : length (flat_map (fun c : box R => m_points (b_mesh c)) (oct_cubes o [])) = (8 * length (oct_cubes o []))%nat); [|rewrite X; auto].
    assert (Y : forall c, In c (oct_cubes o []) -> length (m_points (b_mesh c)) = 8%nat).
    { intros c IN. destruct (cube_is_box _ _ _ P I IN) as [mn [mx [-> _]]]. rewrite box_make_points. reflexivity. }
    clear -Y. induction (oct_cubes o []) as [|c cs IH]; auto. cbn [flat_map]. rewrite app_length, IH by (intros; apply Y; right; auto). rewrite Y by (left; auto). cbn [length]. lia. }
  assert (RB : rebuild o = filterOverlapping m0) by reflexivity.
  pose proof (C15_filter _ _ m0 LP) as C15. pose proof (oct_mesh_ok _ OK) as OM. rewrite RB in OM.
  destruct (filterOverlapping m0) as [m1| | |] eqn:EF; try contradiction.
  - destruct (oct_mesh o) as [[m o']| | |]; try contradiction; [|discriminate]. destruct OM as [[M1 M2] _].
    destruct C15 as [_ [C2 [_ [l [L1 L2]]]]].
    assert (SM : soup_of m = Some (map (rep3 (m_points m0)) l)) by (unfold soup_of; rewrite M1, M2; exact L2).
    exists m, o', ls, (map (rep3 (m_points m0)) l). split; auto. split; auto. split; auto. split; [|split].
    + pose proof (C15_displacement m0 m1 l (map (rep3 (m_points m0)) l) LP EF L1 L2) as D. cbv zeta in D. rewrite E1 in L1. injection L1 as <-.
      cbv zeta. clear -D. induction D as [|[[a b] c] [[a' b'] c'] x y H D IH]; constructor; auto.
      destruct H as [H1 [H2 H3]]. repeat split; intros g G; [apply (H1 g G)|apply (H2 g G)|apply (H3 g G)].
    + intros p Q. rewrite M1, C2 in Q. apply firsts_incl in Q. rewrite E2 in Q. apply in_flat_map in Q. destruct Q as [c [Q1 Q2]]. eauto.
    + rewrite M1. apply (C15_distinct_keys _ _ m0 m1 LP EF).
  - exfalso. destruct C15 as [[p [P1 P2]]|C15].
    + rewrite E2 in P1. apply in_flat_map in P1. destruct P1 as [c [IN IP]]. destruct (cube_is_box _ _ _ P I IN) as [mn [mx [-> [OR INB]]]].
      rewrite box_make_points in IP. apply (corners_in _ _ _ OR) in IP. apply INB in IP. revert P2. apply key_ok.
      unfold s_in_box, off_of, max_of in *. cbn [vx vy vz] in *. lra.
    + apply C15. unfold valid_mesh. apply soup_valid. eauto.
Qed.
(** Shape::empty looks at a mesh the octree never fills, and setMesh replaces only that one *)
Theorem C46_empty_refuted : exists o0 o, oct_new 20 (fz 4) (fz 1) = Ret o0 /\ oct_add 20 o0 (dv 15 15 15) = Ret o /\ Nat.eqb (length (oct_cubes o [])) 1 = true /\ oct_empty o = true.
Proof.
  destruct (oret_ex _ (oct_new 20 (fz 4) (fz 1)) (fun o0 => oret_chk (oct_add 20 o0 (dv 15 15 15)) (fun o => Nat.eqb (length (oct_cubes o [])) 1 && oct_empty o))) as [o0 [N C]];
    [vm_compute; reflexivity|]. apply oret_ex in C. destruct C as [o [A C]]. apply andb_prop in C. destruct C as [C1 C2].
  exact (ex_intro _ o0 (ex_intro _ o (conj N (conj A (conj C1 C2))))).
Qed.
Theorem C46_setMesh_ignored : forall (T : Type) (NT : Num T) (o : octree T) m,
  match oct_mesh (oct_setMesh o m), oct_mesh o with
  | Ret (a, _), Ret (b, _) => a = b
  | x, y => match x, y with Ret _, _ | _, Ret _ => False | _, _ => True end
  end /\ oct_cubes (oct_setMesh o m) [] = oct_cubes o [] /\ oct_empty (oct_setMesh o m) = mesh_empty m.
Proof.
  intros T NT o m. split; [|split; reflexivity]. unfold oct_mesh, oct_setMesh, oct_cubes. cbn [o_mesh o_root o_off].
  destruct (mesh_empty (o_mesh o)); auto. destruct (filterOverlapping _); cbn; auto.
Qed.
Example C46_nonvacuous : exists o, s_reach 4 o /\ 0 < 4 <= 4000000 /\ (N.of_nat (8 * length (oct_cubes o [])) < 2 ^ 32)%N /\ In ex_c (oct_cubes o []).
Proof.
  destruct ex_reach as [o [R [_ C]]]. exists o. split; auto. split; [lra|]. split; [|apply C; auto].
  destruct (C41_disjoint 4 o ltac:(lra) R) as [_ [_ ND]].
  assert (LE : (length (oct_cubes o []) <= length [ex_c; ex_c2])%nat).
  { apply NoDup_incl_length; auto. intros c IN. apply C in IN. cbn. destruct IN as [-> | ->]; auto. }
  cbn [length] in LE. lia.
Qed.
Print Assumptions C46_copy.
Print Assumptions C46_mesh_current.
Print Assumptions C46_mesh_content.
Print Assumptions C46_empty_refuted.
Print Assumptions C46_setMesh_ignored.

(** ** C32 *)
(** no bounding box was computed since construction or the last setMesh *)
Definition s_unqueried {T} (ops : list (oct_op T)) : Prop :=
  exists pre post, ops = pre ++ post /\ (pre = [] \/ exists pre' m, pre = pre' ++ [OSetMesh m]) /\ ~ In OGetBBox post.
Lemma oct_mesh_base : forall T (NT : Num T) (o o' : octree T) m, oct_mesh o = Ret (m, o') -> o_base o' = o_base o.
Proof.
  intros T NT o o' m H. unfold oct_mesh in H. destruct (mesh_empty _).
  - destruct (filterOverlapping _); try discriminate. injection H as <- <-. auto.
  - injection H as <- <-. auto.
Qed.
Lemma step_base : forall T (NT : Num T) f (o : octree T) op o', oct_step f o op = Ret o' -> op <> OGetBBox ->
  (forall m, op <> OSetMesh m) -> o_base o' = o_base o.
Proof.
  intros T NT f o op o' H N N'. destruct op as [p| |q|ry t0 t1| | |mm|]; cbn [oct_step] in H; try congruence.
  - unfold oct_add in H. destruct (node_add _ _ _ _); try discriminate. injection H as <-. auto.
  - injection H as <-. auto.
  - unfold oct_setRes in H. destruct (halve _ _ _); try discriminate. injection H as <-. auto.
  - unfold oct_raytrace in H. destruct (box_ray _ _ _ _ _) as [[|] z]; cbn [negb] in H; [|injection H as <-; auto].
    destruct (node_raytrace _ _ _ _ _ _ _); try discriminate. cbn [obind] in H. unfold oct_add in H. destruct (node_add _ _ _ _); try discriminate. injection H as <-. auto.
  - destruct (oct_mesh o) as [[m x]| | |] eqn:E; try discriminate. injection H as <-. apply (oct_mesh_base _ _ _ _ _ E).
  - injection H as <-. auto.
Qed.
Lemma run_app : forall T (NT : Num T) f a b (o o' : octree T), oct_run f o (a ++ b) = Ret o' -> exists o1, oct_run f o a = Ret o1 /\ oct_run f o1 b = Ret o'.
Proof.
  induction a as [|op a IH]; intros b o o' H; cbn [app oct_run] in *; [eauto|]. destruct (oct_step f o op); try discriminate. cbn [obind] in *. auto.
Qed.
Lemma unqueried_fresh : forall T (NT : Num T) f (S req : T) ops o0 o, oct_new f S req = Ret o0 -> oct_run f o0 ops = Ret o -> s_unqueried ops -> s_bbv (o_base o) = false.
Proof.
  intros T NT f S req ops o0 o N R [pre [post [-> [PRE POST]]]]. apply run_app in R. destruct R as [o1 [R1 R2]].
  assert (V : s_bbv (o_base o1) = false).
  { destruct PRE as [-> |[pre' [m ->]]].
    - injection R1 as <-. unfold oct_new, oct_setRes in N. destruct (halve _ _ _); try discriminate. injection N as <-. reflexivity.
    - apply run_app in R1. destruct R1 as [o2 [_ R1]]. cbn in R1. injection R1 as <-. reflexivity. }
  clear R1. revert o1 V R2. induction post as [|op post IH]; intros o1 V R2; cbn [oct_run] in R2; [injection R2 as <-; auto|].
  destruct (oct_step f o1 op) as [o2| | |] eqn:E; try discriminate. cbn [obind] in R2. apply (IH ltac:(intros X; apply POST; right; auto) o2); auto.
  destruct op as [p| |q|ry t0 t1| | |mm|]; try (rewrite (step_base _ _ _ _ _ _ E) by congruence; auto; fail).
  - exfalso. apply POST. left. auto.
  - cbn in E. injection E as <-. reflexivity.
Qed.
(** once a box has been computed it is returned unchanged by every later query, whatever is added, cleared or traced *)
Theorem C32_frozen : forall (T : Type) (NT : Num T) f (o o1 o2 : octree T) b ops, oct_bbox o = Ret (b, o1) -> oct_run f o1 ops = Ret o2 ->
  (forall m, ~ In (OSetMesh m) ops) -> exists o3, oct_bbox o2 = Ret (b, o3).
Proof.
  intros T NT f o o1 o2 b ops B R NS.
  assert (V : s_bbv (o_base o1) = true /\ b = box_make (s_bbmin (o_base o1)) (s_bbmax (o_base o1))).
  { unfold oct_bbox in B. destruct (s_bbv (o_base o)) eqn:EV.
    - unfold shape_bbox in B. rewrite EV in B. injection B as <- <-. auto.
    - destruct (oct_mesh o) as [[m x]| | |] eqn:EM; try discriminate. cbn [obind] in B. rewrite (oct_mesh_base _ _ _ _ _ EM) in B.
      unfold shape_bbox in B. rewrite EV in B. destruct (bb_of_points _). injection B as <- <-. auto. }
  destruct V as [V ->].
  assert (G : o_base o2 = o_base o1).
  { clear B. revert o1 V R. induction ops as [|op ops IH]; intros o1 V R; cbn [oct_run] in R; [injection R as <-; auto|].
    destruct (oct_step f o1 op) as [o4| | |] eqn:E; try discriminate. cbn [obind] in R.
    assert (G : o_base o4 = o_base o1).
    { destruct op as [p| |q|ry t0 t1| | |mm|]; try (rewrite (step_base _ _ _ _ _ _ E) by congruence; auto; fail).
      - cbn [oct_step] in E. unfold oct_bbox, shape_bbox in E. rewrite V in E. injection E as <-. auto.
      - exfalso. apply (NS mm). left. auto. }
    rewrite <- G. apply IH; [intros m X; apply (NS m); right; auto|rewrite G; auto|exact R]. }
  unfold oct_bbox. rewrite G, V. unfold shape_bbox. rewrite V. eauto.
Qed.
Theorem C32_stale_refuted : exists o0 o of b bf, oct_new 20 (fz 4) (fz 1) = Ret o0 /\
  oct_run 20 o0 [OAdd (dv (-15) (-15) (-15)); OGetBBox; OAdd (dv 15 15 15)] = Ret o /\ fst_ret (oct_bbox o) = Some b /\
  oct_run 20 o0 [OAdd (dv (-15) (-15) (-15)); OAdd (dv 15 15 15)] = Ret of /\ fst_ret (oct_bbox of) = Some bf /\
  nltb (vx (b_max b)) (fz 0) = true /\ neqb (vx (b_max bf)) (fz 2) = true.
Proof.
  destruct (oret_ex _ (oct_new 20 (fz 4) (fz 1)) (fun o0 => oret_chk (oct_run 20 o0 [OAdd (dv (-15) (-15) (-15)); OGetBBox; OAdd (dv 15 15 15)])
     (fun o => some_chk (fst_ret (oct_bbox o)) (fun b => nltb (vx (b_max b)) (fz 0))) &&
     oret_chk (oct_run 20 o0 [OAdd (dv (-15) (-15) (-15)); OAdd (dv 15 15 15)]) (fun o => some_chk (fst_ret (oct_bbox o)) (fun b => neqb (vx (b_max b)) (fz 2))))) as [o0 [N C]];
    [vm_compute; reflexivity|]. apply andb_prop in C. destruct C as [C1 C2]. apply oret_ex in C1, C2. destruct C1 as [o [R C1]], C2 as [of [R' C2]].
  apply some_ex in C1, C2. destruct C1 as [b [B C1]], C2 as [bf [B' C2]].
  exact (ex_intro _ o0 (ex_intro _ o (ex_intro _ of (ex_intro _ b (ex_intro _ bf (conj N (conj R (conj B (conj R' (conj B' (conj C1 C2))))))))))).
Qed.
(** missing: queries after an earlier query, where the box is stale *)
Theorem C32_first_query_partial : forall f S req ops o0 o, 0 < S <= 4000000 -> oct_new f S req = Ret o0 -> oct_run f o0 ops = Ret o -> s_unqueried ops ->
  (N.of_nat (8 * length (oct_cubes o [])) < 2 ^ 32)%N ->
  exists b o', oct_bbox o = Ret (b, o') /\
  (forall c p, In c (oct_cubes o []) -> s_in_box (b_min c) (b_max c) p -> forall g : vec3 R -> R, (g = vx \/ g = vy \/ g = vz) -> g (b_min b) - 2/1000 < g p < g (b_max b) + 2/1000) /\
  (oct_cubes o [] <> [] -> forall lo hi, (forall c p, In c (oct_cubes o []) -> s_in_box (b_min c) (b_max c) p -> s_in_box lo hi p) ->
     forall p, s_in_box (b_min b) (b_max b) p -> s_in_box lo hi p).
Proof.
  intros f S req ops o0 o [P PU] N RUN UQ L. pose proof (unqueried_fresh _ _ _ _ _ _ _ _ N RUN UQ) as FR.
  assert (RC : s_reach S o) by (exists f, req, ops, o0; auto). pose proof (reach_inv _ _ P RC) as I.
  destruct (C46_mesh_content S o (conj P PU) RC L) as [m [o' [ls [l' [M [LS [SM [NR [IC _]]]]]]]]]. cbv zeta in NR.
  unfold oct_bbox. rewrite FR, M. cbn [obind]. pose proof (oct_mesh_base _ _ _ _ _ M) as BB. rewrite BB.
  destruct (shape_bbox (o_base o) m) as [b sh] eqn:EB. exists b. eexists. split; [reflexivity|].
  assert (EB' : b = fst (shape_bbox (o_base o) m)) by (rewrite EB; auto).
  assert (PIN : forall q, In q (m_points m) -> s_in_box (b_min b) (b_max b) q).
  { intros q Q. rewrite EB'. apply C22_contains_real. apply (C30_contains R NumR NumOrdR); auto. intros q' _. repeat split; discriminate. }
  assert (NEAR : forall c q, In c (oct_cubes o []) -> q = b_min c \/ q = b_max c -> exists q', In q' (m_points m) /\
    Rabs (vx q - vx q') < 2/1000 /\ Rabs (vy q - vy q') < 2/1000 /\ Rabs (vz q - vz q') < 2/1000).
  { intros c q IN Q. destruct (cube_is_box _ _ _ P I IN) as [mn [mx [EC _]]].
    assert (T3 : exists x y z, In (x, y, z) (concat ls) /\ (q = y \/ q = z)).
    { clear -LS IN Q EC. induction LS as [|c0 s0 cs ss H LS IH]; [contradiction|]. cbn [concat]. destruct IN as [-> |IN].
      - rewrite EC in *. unfold soup_of in H. rewrite box_make_points, box_make_tris in H. cbn in H. injection H as <-. cbn [box_make b_min b_max] in Q. destruct Q as [-> | ->].
        + do 3 eexists. split; [left; reflexivity|]. left. destruct mn; reflexivity.
        + do 3 eexists. split; [right; right; right; left; reflexivity|]. right. destruct mx; reflexivity.
      - destruct (IH IN) as [x [y [z [A B]]]]. exists x, y, z. split; auto. apply in_or_app. auto. }
    destruct T3 as [x [y [z [IT QQ]]]].
    assert (T4 : exists x' y' z', In (x', y', z') l' /\ (forall g, g = vx \/ g = vy \/ g = vz -> Rabs (g y - g y') < 2 / 1000) /\ (forall g, g = vx \/ g = vy \/ g = vz -> Rabs (g z - g z') < 2 / 1000)).
    { clear -NR IT. induction NR as [|[[a0 b0] c0] [[a1 b1] c1] u v H NR IH]; [contradiction|]. destruct IT as [E|IT].
      - injection E as -> -> ->. exists a1, b1, c1. split; [left; auto|]. tauto.
      - destruct (IH IT) as [x' [y' [z' [A B]]]]. exists x', y', z'. split; [right; auto|auto]. }
    destruct T4 as [x' [y' [z' [IT' [Y Z]]]]]. destruct (soup_in _ _ _ _ _ _ SM IT') as [_ [I2 I3]].
    destruct QQ as [-> | ->]; [exists y'|exists z']; (split; [auto|]); [|]; repeat split; auto. }
  split.
  - intros c p IN [B1 [B2 B3]] g G. destruct (NEAR c (b_min c) IN (or_introl eq_refl)) as [q1 [Q1 [X1 [Y1 Z1]]]].
    destruct (NEAR c (b_max c) IN (or_intror eq_refl)) as [q2 [Q2 [X2 [Y2 Z2]]]]. destruct (PIN _ Q1) as [U1 [U2 U3]], (PIN _ Q2) as [W1 [W2 W3]].
    apply Rabs_def2 in X1, Y1, Z1, X2, Y2, Z2. destruct G as [-> |[-> | ->]]; lra.
  - intros NE lo hi H p Q.
    assert (PTS : forall q, In q (m_points m) -> exists c, In c (oct_cubes o []) /\ s_in_box (b_min c) (b_max c) q).
    { intros q IQ. destruct (IC q IQ) as [c [C1 C2]]. exists c. split; auto. destruct (cube_is_box _ _ _ P I C1) as [mn [mx [-> [OR _]]]]. rewrite box_make_points in C2. apply corners_in; auto. }
    rewrite EB' in Q. apply (C30_smallest_real (o_base o) m lo hi FR) with (q := p); auto.
    + destruct (oct_cubes o []) as [|c cs]; [congruence|]. destruct (NEAR c (b_min c) (or_introl eq_refl) (or_introl eq_refl)) as [q' [Q' _]]. destruct (m_points m); [contradiction|discriminate].
    + intros q IQ. destruct (PTS q IQ) as [c [C1 C2]]. destruct (cube_is_box _ _ _ P I C1) as [mn [mx [-> [_ INS]]]]. apply INS in C2.
      unfold s_in_box, off_of, max_of in *. cbn [vx vy vz] in *. lra.
    + intros q IQ. destruct (PTS q IQ) as [c [C1 C2]]. eapply H; eauto.
Qed.
Example C32_nonvacuous : s_unqueried ex_ops /\ s_unqueried [OGetBBox; OSetMesh mesh_new; OAdd ex_p; OGetMesh].
Proof.
  split.
  - exists [], ex_ops. split; auto. split; auto. intros [X|[X|[X|[X|[]]]]]; discriminate.
  - exists [OGetBBox; OSetMesh mesh_new], [OAdd ex_p; OGetMesh]. split; auto. split; [right; exists [OGetBBox], mesh_new; reflexivity|]. unfold not; cbn [In]; intros [X|[X|X]]; [discriminate X|discriminate X|exact X].
Qed.
Print Assumptions C32_frozen.
Print Assumptions C32_stale_refuted.
Print Assumptions C32_first_query_partial.
