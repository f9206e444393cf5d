(** * Property C91: octrees on doubles *)
From Coq Require Import ZArith List Bool Lia Reals Lra Psatz.
From Flocq Require Import Core BinarySingleNaN.
From Verif Require Import Num MathTypes Outcome Mesh Box Octree Spec SpecOctree SpecRound SpecOctF NumOrd P_Tac P_Octree P_OctreeRun P_OctreeQ P_Round P_Float P_OctF P_OctF2
  Props_Mesh Props_Box Props_Octree.
Import ListNotations.
Local Open Scope R_scope.

(** the resolution is exactly the largest S/2^m not above the request: halving does not round *)
Theorem C91_resolution : forall f (S req : F64) o0, s_sideF S -> s_reqF req -> oct_new f S req = Ret o0 ->
  s_fin (o_res o0) /\ s_resolution (B2R S) (B2R req) (B2R (o_res o0)).
Proof.
  intros f S req o0 OK RQ N. destruct (new_osim f S req o0 OK RQ N) as [o0' [_ [H [_ R]]]]. split; [apply H|]. rewrite (os_res _ _ _ H). exact R.
Qed.

(** a history on doubles does what the same history does on real numbers when each added point is displaced by at most one
    rounding error of p - offset: same resolutions, same cells, and the queries read off those cells *)
Theorem C91_follows : forall f (S req : F64) o0 ops o, s_sideF S -> s_reqF req -> Forall (s_opF S) ops ->
  oct_new f S req = Ret o0 -> oct_run f o0 ops = Ret o ->
  exists ops' A, Forall2 (s_op_close (uro * B2R S)) ops ops' /\
    s_hist (B2R S) (s_low (B2R S)) (B2R (o_res o0)) no_cells ops' (B2R (o_res o)) A /\
    (forall b, In b (oct_cubes o []) -> exists k i j l, s_uncovered A k i j l /\ s_cube_close (64 * (uro * B2R S)) (B2R S) b k i j l) /\
    (forall k i j l, s_uncovered A k i j l -> exists b, In b (oct_cubes o []) /\ s_cube_close (64 * (uro * B2R S)) (B2R S) b k i j l) /\
    (forall p, s_finv p -> exists q, (s_in_box (s_low (B2R S)) (s_high (B2R S)) (rv p) -> s_close (uro * B2R S) q (rv p)) /\
       (oct_contains o p = true <-> s_in_box (s_low (B2R S)) (s_high (B2R S)) (rv p) /\
          exists k i j l, s_uncovered A k i j l /\ s_seen (B2R S) k (vx q + B2R S / 2) i /\ s_seen (B2R S) k (vy q + B2R S / 2) j /\ s_seen (B2R S) k (vz q + B2R S / 2) l)) /\
    (forall b, s_finv (b_min b) -> s_finv (b_max b) -> s_ordered (rv (b_min b)) (rv (b_max b)) ->
       (oct_box o b = true -> exists k i j l p q, s_uncovered A k i j l /\ s_in_cell (s_low (B2R S)) (s_cmin (s_low (B2R S)) (B2R S) k i j l) (s_cmax (s_low (B2R S)) (B2R S) k i j l) p /\
          s_in_box (rv (b_min b)) (rv (b_max b)) q /\ s_close (uro * B2R S) p q) /\
       (forall k i j l q, s_uncovered A k i j l -> s_in_box (rv (b_min b)) (rv (b_max b)) q -> s_in_box (s_low (B2R S)) (s_high (B2R S)) q ->
          (forall p, s_close (uro * B2R S) p q -> s_in_cell (s_low (B2R S)) (s_cmin (s_low (B2R S)) (B2R S) k i j l) (s_cmax (s_low (B2R S)) (B2R S) k i j l) p) ->
          oct_box o b = true)).
Proof.
  intros f S req o0 ops o OK RQ OPS N RUN. destruct (side_smin S OK) as [FS [SB [SP _]]].
  destruct (new_osim f S req o0 OK RQ N) as [o0' [_ [H0 [O0 _]]]].
  destruct (run_osim f S ops o0 o0' none o OK H0 O0 OPS RUN) as [ops' [o' [A [C1 [C2 [C3 C4]]]]]].
  rewrite <- (os_res _ _ _ H0), <- (os_res _ _ _ C2) in C4. exists ops', A. split; [exact C1|]. split; [exact C4|]. pose proof C3 as [I _].
  pose proof (cubes_err S o o' OK C2 I) as CE. change (s_low (B2R S)) with (off_of (B2R S)) in *. change (s_high (B2R S)) with (max_of (B2R S)) in *.
  split; [|split; [|split]].
  - intros b IN. destruct (F2_left _ _ _ _ CE IN) as [c [IC [W1 [W2 [W3 W4]]]]]. apply (octs_cubes _ _ _ c C3) in IC. destruct IC as [k [i [j [l [U EC]]]]].
    exists k, i, j, l. split; [exact U|]. rewrite EC in W3, W4. cbn [box_make b_min b_max] in W3, W4. split; [exact W1|]. split; [exact W2|]. split; [exact W3|exact W4].
  - intros k i j l U. assert (IC : In (box_make (s_cmin (off_of (B2R S)) (B2R S) k i j l) (s_cmax (off_of (B2R S)) (B2R S) k i j l)) (oct_cubes o' [])).
    { apply (octs_cubes _ _ _ _ C3). exists k, i, j, l. auto. }
    destruct (F2_right _ _ _ _ CE IC) as [b [IB [W1 [W2 [W3 W4]]]]]. exists b. split; [exact IB|]. split; [exact W1|]. split; [exact W2|]. split; [exact W3|exact W4].
  - intros p FP. exists (stored S p). split; [intros B; apply (stored_ok S p OK FP B)|]. rewrite (oct_contains_sim S o o' p OK C2 I FP).
    change (s_low (B2R S)) with (off_of (B2R S)) in *. change (s_high (B2R S)) with (max_of (B2R S)) in *.
    pose proof (oct_contains_spec (B2R S) o' (stored S p) SP I) as CS. rewrite (oi_off _ _ I), (oi_max _ _ I) in CS.
    assert (EQ : forall x, x + B2R S / 2 = x - - B2R S / 2) by (intros; lra).
    split; intros [B K]; split; auto.
    + apply CS in K. destruct K as [_ [k [i [j [l [IN [X [Y Z]]]]]]]]. apply (octs_cubes _ _ _ _ C3) in IN. destruct IN as [k' [i' [j' [l' [U E]]]]].
      apply (cube_inj _ _ _ _ _ _ _ _ _ SP) in E. destruct E as [-> [-> [-> ->]]]. exists k', i', j', l'. rewrite !EQ. split; [exact U|]. split; [exact X|]. split; [exact Y|exact Z].
    + destruct K as [k [i [j [l [U [X [Y Z]]]]]]]. rewrite !EQ in *. apply CS. split; [apply (stored_ok S p OK FP B)|]. exists k, i, j, l. split; [apply (octs_cubes _ _ _ _ C3); exists k, i, j, l; auto|].
      split; [exact X|]. split; [exact Y|exact Z].
  - intros b FB1 FB2 OB. destruct (oct_box_sim S o o' b OK C2 I FB1 FB2 OB) as [NO OV]. pose proof OB as [OB1 [OB2 OB3]].
    assert (DEC : overlap (B2R S) (rv (b_min b)) (rv (b_max b)) \/ ~ overlap (B2R S) (rv (b_min b)) (rv (b_max b))).
    { unfold overlap, overlap1. destruct (Rle_dec (- B2R S / 2) (vx (rv (b_max b)))), (Rle_dec (vx (rv (b_min b))) (B2R S / 2)), (Rle_dec (- B2R S / 2) (vy (rv (b_max b)))),
        (Rle_dec (vy (rv (b_min b))) (B2R S / 2)), (Rle_dec (- B2R S / 2) (vz (rv (b_max b)))), (Rle_dec (vz (rv (b_min b))) (B2R S / 2)); (left; lra) || (right; lra). }
    destruct DEC as [D|D].
    + destruct (OV D) as [lo [hi [OR [EB [CL CH]]]]]. rewrite EB. pose proof (oct_box_spec (B2R S) o' (box_make lo hi) SP I OR) as BS. rewrite (oi_off _ _ I) in BS. cbn [box_make b_min b_max] in BS.
      destruct D as [[DX1 DX2] [[DY1 DY2] [DZ1 DZ2]]]. destruct CL as [CLX [CLY CLZ]]. destruct CH as [CHX [CHY CHZ]]. unfold clampv in *. cbn [vx vy vz] in *. destruct OR as [OR1 [OR2 OR3]].
      assert (E0 : 0 <= uro * B2R S) by (apply Rmult_le_pos; [unfold uro; lra|lra]).
      split.
      * intros T. apply BS in T. destruct T as [c [p [IC [IP ICE]]]]. apply (octs_cubes _ _ _ _ C3) in IC. destruct IC as [k [i [j [l [U ->]]]]]. cbn [box_make b_min b_max] in ICE.
        assert (AX : forall a c lo hi x e, a <= c -> - B2R S / 2 <= c -> a <= B2R S / 2 -> Rabs (lo - Rmax a (- B2R S / 2)) <= e -> Rabs (hi - Rmin c (B2R S / 2)) <= e -> lo <= x <= hi -> 0 <= e ->
                 exists y, a <= y <= c /\ Rabs (x - y) <= e).
        { intros a c' lo' hi' x e A1 A2 A3 A4 A5 A6 A7. exists (Rmax a (Rmin x c')). apply Rabs_le_inv in A4. apply Rabs_le_inv in A5. revert A4 A5. unfold Rmax, Rmin.
          repeat destruct Rle_dec; intros; (split; [lra|apply Rabs_le; lra]). }
        destruct IP as [IX [IY IZ]]. destruct (AX _ _ _ _ _ _ OB1 DX1 DX2 CLX CHX IX E0) as [x [X1 X2]]. destruct (AX _ _ _ _ _ _ OB2 DY1 DY2 CLY CHY IY E0) as [y [Y1 Y2]].
        destruct (AX _ _ _ _ _ _ OB3 DZ1 DZ2 CLZ CHZ IZ E0) as [z [Z1 Z2]]. exists k, i, j, l, p, (V3 x y z). split; [exact U|]. split; [exact ICE|].
        split; [split; [exact X1|split; [exact Y1|exact Z1]]|]. split; [exact X2|split; [exact Y2|exact Z2]].
      * intros k i j l q U [QX [QY QZ]] [RX [RY RZ]] CELL. apply BS.
        assert (AX : forall a c lo hi x e, Rabs (lo - Rmax a (- B2R S / 2)) <= e -> Rabs (hi - Rmin c (B2R S / 2)) <= e -> lo <= hi -> a <= x <= c -> - B2R S / 2 <= x <= B2R S / 2 -> 0 <= e ->
                 exists y, lo <= y <= hi /\ Rabs (y - x) <= e).
        { intros a c' lo' hi' x e A4 A5 A6 A7 A8 A9. exists (Rmax lo' (Rmin x hi')). apply Rabs_le_inv in A4. apply Rabs_le_inv in A5. revert A4 A5. unfold Rmax, Rmin.
          repeat destruct Rle_dec; intros; (split; [lra|apply Rabs_le; lra]). }
        destruct (AX _ _ _ _ _ _ CLX CHX OR1 QX RX E0) as [x [X1 X2]]. destruct (AX _ _ _ _ _ _ CLY CHY OR2 QY RY E0) as [y [Y1 Y2]]. destruct (AX _ _ _ _ _ _ CLZ CHZ OR3 QZ RZ E0) as [z [Z1 Z2]].
        eexists. exists (V3 x y z). split; [apply (octs_cubes _ _ _ _ C3); exists k, i, j, l; split; [exact U|reflexivity]|].
        split; [split; [exact X1|split; [exact Y1|exact Z1]]|]. cbn [box_make b_min b_max]. apply CELL. split; [exact X2|split; [exact Y2|exact Z2]].
    + rewrite (NO D). split; [discriminate|]. intros k i j l q U [QX [QY QZ]] [RX [RY RZ]] _. exfalso. apply D. unfold overlap, overlap1. cbn [off_of max_of vx vy vz] in *. lra.
Qed.

(** with a side of few significant bits (an integer number of metres, a power of two) the listed cubes are exact *)
Theorem C91_exact : forall f (S req : F64) o0 ops o m, s_sideF S -> s_reqF req -> Forall (s_opF S) ops -> s_short (B2R S) m ->
  oct_new f S req = Ret o0 -> oct_run f o0 ops = Ret o ->
  exists ops' A, Forall2 (s_op_close (uro * B2R S)) ops ops' /\
    s_hist (B2R S) (s_low (B2R S)) (B2R (o_res o0)) no_cells ops' (B2R (o_res o)) A /\
    (forall k i j l, (k <= m)%nat -> s_uncovered A k i j l -> exists b, In b (oct_cubes o []) /\ s_cube_close 0 (B2R S) b k i j l) /\
    (forall b, In b (oct_cubes o []) -> exists k i j l, s_uncovered A k i j l /\ ((k <= m)%nat -> s_cube_close 0 (B2R S) b k i j l)).
Proof.
  intros f S req o0 ops o m OK RQ OPS SH N RUN. destruct (side_smin S OK) as [FS [SB [SP _]]].
  destruct (new_osim f S req o0 OK RQ N) as [o0' [_ [H0 [O0 _]]]].
  destruct (run_osim f S ops o0 o0' none o OK H0 O0 OPS RUN) as [ops' [o' [A [C1 [C2 [C3 C4]]]]]].
  rewrite <- (os_res _ _ _ H0), <- (os_res _ _ _ C2) in C4. exists ops', A. split; [exact C1|]. split; [exact C4|]. pose proof C3 as [I _].
  pose proof (cubes_exact S o o' m OK C2 I SH) as CE. unfold s_cube_close. change (s_low (B2R S)) with (off_of (B2R S)) in *.
  assert (Z0 : forall u, s_close 0 u u) by (intros u; unfold s_close; rewrite !Rminus_diag_eq by reflexivity; rewrite Rabs_R0; lra).
  assert (LV : forall c k i j l k', c = box_make (s_cmin (off_of (B2R S)) (B2R S) k i j l) (s_cmax (off_of (B2R S)) (B2R S) k i j l) ->
    b_max c = vadd (b_min c) (V3 (s_side (B2R S) k') (s_side (B2R S) k') (s_side (B2R S) k')) -> k' = k).
  { intros c k i j l k' -> E. cbn [box_make b_min b_max] in E. pose proof (f_equal vx E) as EX. unfold s_cmin, s_cmax, vadd in EX. cbn [vx nadd NumR] in EX. apply (side_inj (B2R S)); auto. lra. }
  split.
  - intros k i j l K U. assert (IC : In (box_make (s_cmin (off_of (B2R S)) (B2R S) k i j l) (s_cmax (off_of (B2R S)) (B2R S) k i j l)) (oct_cubes o' [])).
    { apply (octs_cubes _ _ _ _ C3). exists k, i, j, l. auto. }
    destruct (F2_right _ _ _ _ CE IC) as [b [IB [k' [E W]]]]. rewrite (LV _ k i j l k' eq_refl E) in W. destruct (W K) as [W1 [W2 [W3 W4]]]. cbn [box_make b_min b_max] in W3, W4.
    exists b. split; [exact IB|]. split; [exact W1|]. split; [exact W2|]. rewrite W3, W4. auto.
  - intros b IN. destruct (F2_left _ _ _ _ CE IN) as [c [IC [k' [E W]]]]. apply (octs_cubes _ _ _ c C3) in IC. destruct IC as [k [i [j [l [U EC]]]]].
    exists k, i, j, l. split; [exact U|]. intros K. rewrite (LV _ k i j l k' EC E) in W. destruct (W K) as [W1 [W2 [W3 W4]]]. rewrite EC in W3, W4. cbn [box_make b_min b_max] in W3, W4.
    split; [exact W1|]. split; [exact W2|]. rewrite W3, W4. auto.
Qed.

(** ** points added at one resolution *)
(** p lies in the box up to e *)
Definition s_near (e : R) (b : box F64) (p : vec3 R) : Prop :=
  (B2R (vx (b_min b)) - e <= vx p <= B2R (vx (b_max b)) + e) /\ (B2R (vy (b_min b)) - e <= vy p <= B2R (vy (b_max b)) + e) /\ (B2R (vz (b_min b)) - e <= vz p <= B2R (vz (b_max b)) + e).
Definition s_edge (e r : R) (b : box F64) : Prop :=
  Rabs (B2R (vx (b_max b)) - B2R (vx (b_min b)) - r) <= e /\ Rabs (B2R (vy (b_max b)) - B2R (vy (b_min b)) - r) <= e /\ Rabs (B2R (vz (b_max b)) - B2R (vz (b_min b)) - r) <= e.
Lemma close_adds : forall e pts ops', Forall2 (s_op_close e) (map OAdd pts) ops' -> exists qs, ops' = map OAdd qs /\ Forall2 (fun p q => s_close e q (rv p)) pts qs.
Proof.
  intros e pts. induction pts as [|p pts IH]; intros ops' H; inversion H as [|x op' l l' H1 H2]; subst; [exists []; split; constructor|].
  destruct op'; cbn [s_op_close] in H1; try contradiction. destruct (IH _ H2) as [qs [-> K]]. exists (p0 :: qs). split; [reflexivity|]. constructor; auto.
Qed.
Lemma hist_adds_inv : forall S off qs res A res' A', s_hist S off res A (map OAdd qs) res' A' -> res' = res /\ A' = adds S off res A qs.
Proof.
  induction qs as [|q qs IH]; intros res A res' A' H; cbn [map adds] in *; inversion H; subst; [auto|]. apply IH. assumption.
Qed.
Theorem C91_points : forall f (S req : F64) o0 pts o, s_sideF S -> s_reqF req -> oct_new f S req = Ret o0 ->
  Forall (fun p => s_finv p /\ s_in_box (s_low (B2R S)) (s_high (B2R S)) (rv p)) pts -> oct_run f o0 (map OAdd pts) = Ret o ->
  (forall p, In p pts -> exists b, In b (oct_cubes o []) /\ s_near (65 * (uro * B2R S)) b (rv p)) /\
  (forall b, In b (oct_cubes o []) -> s_edge (128 * (uro * B2R S)) (B2R (o_res o)) b /\ exists p, In p pts /\ s_near (65 * (uro * B2R S)) b (rv p)) /\
  o_res o = o_res o0.
Proof.
  intros f S req o0 pts o OK RQ N FP RUN. destruct (side_smin S OK) as [FS [SB [SP _]]].
  assert (OPS : Forall (s_opF S) (map OAdd pts)) by (apply Forall_map; exact FP).
  destruct (C91_follows f S req o0 (map OAdd pts) o OK RQ OPS N RUN) as [ops' [A [F2 [HH [CU1 [CU2 _]]]]]].
  destruct (close_adds _ _ _ F2) as [qs [EQ CL]]. rewrite EQ in HH. apply hist_adds_inv in HH. destruct HH as [ER EA].
  destruct (new_osim f S req o0 OK RQ N) as [o0' [_ [H0 [O0 _]]]]. destruct O0 as [I0 _]. destruct (oi_res _ _ I0) as [m M]. rewrite <- (os_res _ _ _ H0) in M.
  pose proof (os_bnd _ _ _ H0) as RB. rewrite <- (os_res _ _ _ H0) in RB. unfold smin, smax in RB.
  assert (LV : s_level (B2R S) (B2R (o_res o0)) m) by (rewrite M; apply level_exact; auto; rewrite <- M; lra).
  set (e := uro * B2R S) in *. assert (E0 : 0 <= e) by (apply Rmult_le_pos; [unfold uro; lra|lra]).
  assert (UC : forall k i j l, s_uncovered A k i j l <-> k = m /\ exists q, In q qs /\ s_cell (B2R S) m (s_diff q (s_low (B2R S))) i j l).
  { intros k i j l. rewrite EA. split.
    - intros [U _]. apply adds_iff in U. destruct U as [[]|[L [q [IQ CE]]]]. assert (k = m) by (eapply level_uniq; eauto). subst k. split; eauto.
    - intros [-> [q [IQ CE]]]. split; [apply adds_iff; right; split; eauto|]. intros k' i' j' l' LT _ U. apply adds_iff in U. destruct U as [[]|[L _]]. pose proof (level_uniq _ _ _ _ L LV). lia. }
  assert (RM : B2R (o_res o) = s_side (B2R S) m) by (rewrite ER; exact M).
  assert (NEAR : forall b i j l p q, s_cube_close (64 * e) (B2R S) b m i j l -> In p pts -> s_close e q (rv p) -> s_in_box (s_low (B2R S)) (s_high (B2R S)) (rv p) ->
    s_cell (B2R S) m (s_diff q (s_low (B2R S))) i j l -> s_near (65 * e) b (rv p)).
  { intros b i j l p q [_ [_ [[M1 [M2 M3]] [X1 [X2 X3]]]]] IP [Q1 [Q2 Q3]] [B1 [B2 B3]] [K1 [K2 K3]]. unfold s_near, rv, s_low, s_high, s_cmin, s_cmax, s_diff in *. cbn [vx vy vz] in *.
    pose proof (side_pow (B2R S) m) as SPW. rewrite <- pow2_IZR in SPW.
    assert (AX : forall lo hi x y i, Rabs (lo - (- B2R S / 2 + s_side (B2R S) m * IZR i)) <= 64 * e -> Rabs (hi - (- B2R S / 2 + s_side (B2R S) m * (IZR i + 1))) <= 64 * e ->
       Rabs (y - x) <= e -> - B2R S / 2 <= x <= B2R S / 2 -> s_cell1 (B2R S) m (y - - B2R S / 2) i -> lo - 65 * e <= x <= hi + 65 * e).
    { intros lo hi x y i' L H Y B [R [C1 C2]]. apply Rabs_le_inv in L. apply Rabs_le_inv in H. apply Rabs_le_inv in Y. split.
      - destruct C1 as [-> |C1]; [|lra]. rewrite Rmult_0_r in L. lra.
      - destruct C2 as [-> |C2]; [|lra]. rewrite minus_IZR in H. replace (s_side (B2R S) m * (IZR (2 ^ Z.of_nat m) - 1 + 1)) with (B2R S) in H by lra. lra. }
    split; [eapply AX; eauto|split; eapply AX; eauto]. }
  split; [|split].
  - intros p IP. destruct (F2_left _ _ _ _ CL IP) as [q [IQ CQ]]. pose proof (dpath_cell m (B2R S) (s_diff q (s_low (B2R S)))) as CE.
    destruct (CU2 m _ _ _ (proj2 (UC _ _ _ _) (conj eq_refl (ex_intro _ q (conj IQ CE))))) as [b [IB CB]]. exists b. split; [exact IB|].
    rewrite Forall_forall in FP. eapply NEAR; eauto. apply FP, IP.
  - intros b IB. destruct (CU1 b IB) as [k [i [j [l [U CB]]]]]. apply UC in U. destruct U as [-> [q [IQ CE]]]. split.
    + destruct CB as [_ [_ [[M1 [M2 M3]] [X1 [X2 X3]]]]]. unfold s_edge, rv, s_low, s_cmin, s_cmax in *. cbn [vx vy vz] in *. rewrite RM.
      apply Rabs_le_inv in M1. apply Rabs_le_inv in M2. apply Rabs_le_inv in M3. apply Rabs_le_inv in X1. apply Rabs_le_inv in X2. apply Rabs_le_inv in X3.
      split; [|split]; apply Rabs_le; lra.
    + destruct (F2_right _ _ _ _ CL IQ) as [p [IP CQ]]. exists p. split; [exact IP|]. rewrite Forall_forall in FP. eapply NEAR; eauto. apply FP, IP.
  - clear - RUN. revert o0 RUN. induction pts as [|p pts IH]; intros o0 RUN; cbn [map oct_run oct_step] in RUN; [congruence|].
    destruct (oct_add f o0 p) as [o1| | |] eqn:E; cbn [obind] in RUN; try discriminate. rewrite (IH o1 RUN). destruct (add_same _ _ _ _ E) as [n [_ [R _]]]. exact R.
Qed.

(** ** termination: no history of adds, clears, resolution requests and copies loops on doubles *)
Definition s_plainF (S : F64) (op : oct_op F64) : Prop := s_opF S op /\ match op with OGetMesh | OGetBBox => False | _ => True end.
Lemma new_returns : forall S req, s_sideF S -> s_reqF req -> exists F o0, forall f, (F <= f)%nat -> oct_new f S req = Ret o0.
Proof.
  intros S req OK RQ. destruct (side_smin S OK) as [FS [SB [SP _]]]. destruct RQ as [FR RB]. destruct (resolution_ex (B2R S) (B2R req) SP ltac:(lra)) as [m [A B]].
  pose proof (halve_sim (Datatypes.S m) S req FS SB (conj FR RB)) as H. rewrite (halve_ok m (B2R S) (B2R req) A B (Datatypes.S m)) in H by lia.
  exists (Datatypes.S m). unfold oct_new, oct_setRes. cbn [o_size]. destruct (halve (Datatypes.S m) S req) as [x| | |] eqn:E; try contradiction; try discriminate.
  eexists. intros f L. rewrite (halve_fuel' _ f _ _ _ L E). reflexivity.
Qed.
Lemma step_returnsF : forall S o o' A op, s_sideF S -> osim S o o' -> octs (B2R S) o' A -> s_plainF S op -> exists f o1, oct_step f o op = Ret o1.
Proof.
  intros S o o' A op OK H HA [OP PL]. destruct op as [p| |r|r t0 t1| | |m|]; cbn [s_opF oct_step] in *; try contradiction.
  - destruct (add_osim S o o' A p OK H HA (proj1 OP) (proj2 OP)) as [F AD]. destruct (AD F (le_n _)) as [o1 [_ [E _]]]. exists F, o1. exact E.
  - exists 0%nat. eexists. reflexivity.
  - destruct (side_smin S OK) as [FS [SB [SP _]]]. destruct OP as [FR RB]. destruct (resolution_ex (B2R S) (B2R r) SP ltac:(lra)) as [m [X Y]].
    pose proof (halve_sim (Datatypes.S m) S r FS SB (conj FR RB)) as HS. rewrite (halve_ok m (B2R S) (B2R r) X Y (Datatypes.S m)) in HS by lia.
    exists (Datatypes.S m). unfold oct_setRes. rewrite (os_size _ _ _ H). destruct (halve (Datatypes.S m) S r) as [x| | |] eqn:E; try contradiction; try discriminate. eexists. reflexivity.
  - exists 0%nat. eexists. reflexivity.
  - exists 0%nat. eexists. reflexivity.
Qed.
Theorem C91_returns : forall (S req : F64) ops, s_sideF S -> s_reqF req -> Forall (s_plainF S) ops ->
  exists F o0 o, forall f, (F <= f)%nat -> oct_new f S req = Ret o0 /\ oct_run f o0 ops = Ret o.
Proof.
  intros S req ops OK RQ PL. destruct (new_returns S req OK RQ) as [F0 [o0 N]]. destruct (new_osim F0 S req o0 OK RQ (N F0 (le_n _))) as [o0' [_ [H0 [O0 _]]]].
  assert (K : forall o o' A, osim S o o' -> octs (B2R S) o' A -> exists f o1, oct_run f o ops = Ret o1).
  { induction PL as [|op ops P1 PL IH]; intros o o' A H HA; [exists 0%nat, o; reflexivity|].
    destruct (step_returnsF S o o' A op OK H HA P1) as [f [o1 E]]. destruct (step_osim f S o o' A op o1 OK H HA (proj1 P1) E) as [op' [o1' [A1 [_ [H1 [HA1 _]]]]]].
    destruct (IH o1 o1' A1 H1 HA1) as [f' [o2 E2]]. exists (f + f')%nat, o2. cbn [oct_run]. rewrite (step_fuel f (f + f')%nat o op o1 ltac:(lia) E). cbn [obind]. apply (run_fuel f' (f + f')%nat ops o1 o2 ltac:(lia) E2). }
  destruct (K o0 o0' none H0 O0) as [f [o E]]. exists (F0 + f)%nat, o0, o. intros g L. split; [apply N; lia|]. apply (run_fuel f g ops o0 o ltac:(lia) E).
Qed.

(** the upper bound on the side is needed: with a resolution of 2^21 the tolerance 1e-10 is lost, and one level too many is added *)
Theorem C91_bound_needed : exists o0 o c, oct_new 20 (fz 2097152) (fz 2097152) = Ret o0 /\ oct_add 20 o0 (V3 (fz 1) (fz 1) (fz 1)) = Ret o /\ oct_cubes o [] = [c] /\
  neqb (o_res o) (fz 2097152) = true /\ neqb (nsub (vx (b_max c)) (vx (b_min c))) (fz 1048576) = true.
Proof.
  destruct (oret_ex _ (oct_new 20 (fz 2097152) (fz 2097152)) (fun o0 => oret_chk (oct_add 20 o0 (V3 (fz 1) (fz 1) (fz 1)))
    (fun o => single (oct_cubes o []) (fun c => neqb (o_res o) (fz 2097152) && neqb (nsub (vx (b_max c)) (vx (b_min c))) (fz 1048576))))) as [o0 [N C]];
    [vm_compute; reflexivity|]. apply oret_ex in C. destruct C as [o [A C]]. apply single_ex in C. destruct C as [c [E C]].
  apply andb_prop in C. destruct C as [C1 C2]. exact (ex_intro _ o0 (ex_intro _ o (ex_intro _ c (conj N (conj A (conj E (conj C1 C2))))))).
Qed.

(** an octree of 10 m with a resolution of 1 m and two points; 10 = 5 * 2 has three bits *)
Example C91_nonvacuous : exists (S req : F64) pts f o0 o, s_sideF S /\ s_reqF req /\ s_short (B2R S) 10 /\ length pts = 2%nat /\
  Forall (fun p => s_finv p /\ s_in_box (s_low (B2R S)) (s_high (B2R S)) (rv p)) pts /\ Forall (s_plainF S) (map OAdd pts ++ [OClear; OSetRes S; OCopy]) /\
  oct_new f S req = Ret o0 /\ oct_run f o0 (map OAdd pts) = Ret o.
Proof.
  assert (Z10 : s_fin (fz 10) /\ B2R (fz 10) = 10) by (apply (ofZ_R 10); reflexivity).
  assert (Z1 : s_fin (fz 1) /\ B2R (fz 1) = 1) by (apply (ofZ_R 1); reflexivity).
  assert (Z3 : s_fin (fz (-3)) /\ B2R (fz (-3)) = -3) by (apply (ofZ_R (-3)); reflexivity).
  destruct Z10 as [F10 E10]. destruct Z1 as [F1 E1]. destruct Z3 as [F3 E3].
  assert (OK : s_sideF (fz 10)) by (split; [exact F10|rewrite E10; lra]). assert (RQ : s_reqF (fz 1)) by (split; [exact F1|rewrite E1; lra]).
  assert (PT : Forall (fun p => s_finv p /\ s_in_box (s_low (B2R (fz 10))) (s_high (B2R (fz 10))) (rv p)) [V3 (fz 1) (fz 1) (fz (-3)); V3 (fz (-3)) (fz 1) (fz 1)]).
  { rewrite E10. constructor; [|constructor; [|constructor]].
    - split; [split; [exact F1|split; [exact F1|exact F3]]|]. unfold s_in_box, s_low, s_high, rv. cbn [vx vy vz]. rewrite E1, E3. lra.
    - split; [split; [exact F3|split; [exact F1|exact F1]]|]. unfold s_in_box, s_low, s_high, rv. cbn [vx vy vz]. rewrite E1, E3. lra. }
  assert (PL : Forall (s_plainF (fz 10)) (map OAdd [V3 (fz 1) (fz 1) (fz (-3)); V3 (fz (-3)) (fz 1) (fz 1)])).
  { apply Forall_map. eapply Forall_impl; [|exact PT]. intros p P. split; [exact P|exact I]. }
  destruct (C91_returns (fz 10) (fz 1) _ OK RQ PL) as [F [o0 [o H]]]. destruct (H F (le_n _)) as [N RUN].
  exists (fz 10), (fz 1), [V3 (fz 1) (fz 1) (fz (-3)); V3 (fz (-3)) (fz 1) (fz 1)], F, o0, o. split; [exact OK|]. split; [exact RQ|].
  split; [exists 5%Z, 1%Z; split; [cbn; lia|split; [lia|rewrite E10; cbn; lra]]|]. split; [reflexivity|]. split; [exact PT|].
  split; [apply Forall_app; split; [exact PL|]|].
  - constructor; [split; exact I|]. constructor; [split; [split; [exact F10|rewrite E10; lra]|exact I]|]. constructor; [split; exact I|constructor].
  - split; [exact N|exact RUN].
Qed.
Print Assumptions C91_resolution.
Print Assumptions C91_follows.
Print Assumptions C91_exact.
Print Assumptions C91_points.
Print Assumptions C91_returns.
Print Assumptions C91_bound_needed.
