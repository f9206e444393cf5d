(** * C105: rays on height maps in the arithmetic of the code (doubles, slab parameters rounded to floats) *)
From Coq Require Import ZArith NArith List Bool Lia Reals Lra.
From Flocq Require Import Core BinarySingleNaN.
From Verif Require Import Num NumOrd MathTypes Outcome Mesh Box Spec SpecRound P_Tac P_Math P_Round P_Round3 P_OctF P_RayF HeightMap SpecHeight
  P_Mesh P_Height P_HeightMesh P_HeightF Props_RayF.
Import ListNotations.
Local Open Scope R_scope.

(** the box of the column of cell (x, y) as a caller would construct it: Box(x * res, y * res, 0; (x + 1) * res, (y + 1) * res, h) *)
Definition s_column_box (res : F64) (x y : nat) (h : F64) : box F64 :=
  let at_ i := nmul (nofZ (Z.of_nat i)) res in
  box_make (V3 (at_ x) (at_ y) (nofZ 0)) (V3 (at_ (S x)) (at_ (S y)) h).
(** finite boxes of moderate extent with ordered corners *)
Definition s_okbox (b : box F64) : Prop :=
  s_finv (b_min b) /\ s_finv (b_max b) /\ s_bound (10 ^ 20) (rv (b_min b)) /\ s_bound (10 ^ 20) (rv (b_max b)) /\ s_ordered (rv (b_min b)) (rv (b_max b)).

(** C105: on doubles too, a box that contains another box is hit by every ray that hits the inner box, no later, whatever the direction
    (axis-parallel rays included) *)
Theorem C105_nested : forall (b b' : box F64) (o d : vec3 F64) (t0 t1 d0 : F64), s_okbox b -> s_okbox b' ->
  s_ordered (rv (b_min b')) (rv (b_min b)) -> s_ordered (rv (b_max b)) (rv (b_max b')) ->
  s_finv o -> s_bound (10 ^ 20) (rv o) -> s_finv d -> s_rangev d -> s_fin t0 -> s_fin t1 ->
  fst (box_ray b (ray_make o d) t0 t1 d0) = true ->
  fst (box_ray b' (ray_make o d) t0 t1 d0) = true /\ B2R (snd (box_ray b' (ray_make o d) t0 t1 d0)) <= B2R (snd (box_ray b (ray_make o d) t0 t1 d0)).
Proof.
  intros b b' o d t0 t1 d0 B B' L1 L2 FO BO FD RD F0 F1 H. destruct (normalized_b d FD RD) as [FU _]. apply box_mono; auto.
Qed.
Print Assumptions C105_nested.

Lemma sizes31 : forall a b, (12 * (N.of_nat a + 1) * (N.of_nat b + 1) <= 2 ^ 32)%N -> (N.of_nat a <= 2 ^ 31)%N /\ (N.of_nat b <= 2 ^ 31)%N.
Proof.
  intros mx my H. set (a := N.of_nat mx) in *. set (b := N.of_nat my) in *.
  change (2 ^ 32)%N with (2 * 2 ^ 31)%N in H. set (P := (2 ^ 31)%N) in *.
  assert (12 * (a + 1) * 1 <= 12 * (a + 1) * (b + 1))%N by (apply N.mul_le_mono_l; lia).
  assert (12 * 1 * (b + 1) <= 12 * (a + 1) * (b + 1))%N by (apply N.mul_le_mono_r; lia). lia.
Qed.
Lemma colbox_eq : forall (g : list (list F64)) res x y, colbox g res x y = s_column_box res x y (cell_at g x y).
Proof. intros. unfold colbox, node_box, s_column_box, nidx, n0. rewrite !Nat.add_1_r. reflexivity. Qed.

(** C105: on doubles, a ray hits a height map exactly when the ray test reports a hit for the box of the column of some cell of positive
    height - the quad tree neither loses nor invents hits through rounding - and the reported distance is the one reported for such a column *)
Theorem C105_hit : forall fuel (g : list (list F64)) my res hm o d t0 t1 d0,
  s_rect g my -> (12 * (N.of_nat (length g) + 1) * (N.of_nat my + 1) <= 2 ^ 32)%N -> from_grid fuel g res = Ret hm ->
  (forall x y h, s_height g x y h -> s_fin h /\ B2R h <= 10 ^ 20) -> s_fin res -> 0 < B2R res <= 10 ^ 9 ->
  s_finv o -> s_bound (10 ^ 20) (rv o) -> s_finv d -> s_rangev d -> s_fin t0 -> s_fin t1 ->
  let hit_column x y h := fst (box_ray (s_column_box res x y h) (ray_make o d) t0 t1 d0) = true in
  let result := hm_ray hm (ray_make o d) t0 t1 d0 in
  (fst result = true <-> exists x y h, s_height g x y h /\ 0 < B2R h /\ hit_column x y h) /\
  (fst result = true -> exists x y h, s_height g x y h /\ 0 < B2R h /\ box_ray (s_column_box res x y h) (ray_make o d) t0 t1 d0 = (true, snd result)).
Proof.
  intros fuel g my res hm o d t0 t1 d0 R SG H CF FR BR FO BO FD RD F0 F1 hit_column result. destruct (sizes31 _ _ SG) as [S1 S2].
  destruct (from_grid_tree fuel g my res hm R S1 S2 H) as [k [pg [KL [K1 [K2 [PC Q]]]]]].
  destruct (normalized_b d FD RD) as [FU _]. destruct zero_R as [FZ EZ].
  assert (CC : forall x y, is_finite (cell_at g x y) = true /\ B2R (cell_at g x y) <= 10 ^ 20).
  { intros x y. destruct (le_lt_dec (length g) x) as [L|L]; [rewrite (cell_out g my) by (auto; lia); split; [exact FZ|rewrite EZ; lra]|].
    destruct (le_lt_dec my y) as [L'|L']; [rewrite (cell_out g my) by (auto; lia); split; [exact FZ|rewrite EZ; lra]|].
    apply (CF x y). apply (height_cell g my); auto. }
  assert (LK : (Z.of_nat (2 ^ k) <= 2 ^ 31)%Z).
  { rewrite Nat2Z.inj_pow. apply Z.pow_le_mono_r; lia. }
  assert (FC : forall x y, is_finite (cell_at pg x y) = true) by (intros; rewrite PC; apply CC).
  assert (BC : forall x y, B2R (cell_at pg x y) <= 10 ^ 20) by (intros; rewrite PC; apply CC).
  pose proof (gquad_ray pg res (ray_make o d) t0 t1 (2 ^ k) H_zero_F (H_max_F pg FC _) (H_nested_F pg res o d t0 t1 FC BC FR BR FO BO FU F0 F1 _ LK)
    k fuel 0 0 (hm_root hm) ltac:(lia) ltac:(lia) Q d0) as G.
  rewrite <- ray_root in G. fold result in G. destruct G as [G1 G2].
  assert (CB : forall x y, colbox pg res x y = s_column_box res x y (cell_at g x y)) by (intros; rewrite colbox_eq, PC; auto).
  assert (HS : forall x y, pos pg x y -> s_height g x y (cell_at g x y) /\ 0 < B2R (cell_at g x y)).
  { intros x y P. apply (pos_F pg FC) in P. rewrite PC in P. split; auto. apply (height_cell g my); auto.
    destruct (le_lt_dec (length g) x); [rewrite (cell_out g my), EZ in P by (auto; lia); lra|].
    destruct (le_lt_dec my y); [rewrite (cell_out g my), EZ in P by (auto; lia); lra|]. auto. }
  split.
  - rewrite G1. split.
    + intros [x [y [_ [P [dist E]]]]]. exists x, y, (cell_at g x y). destruct (HS x y P). split; auto. split; auto.
      unfold hit_column. rewrite <- CB, (E d0). reflexivity.
    + intros [x [y [h [HH [HP HT]]]]]. apply (height_cell g my) in HH; auto. destruct HH as [X [Y E]]. exists x, y. split; [unfold s_covers; lia|].
      subst h. split; [apply (pos_F pg FC); rewrite PC; auto|]. unfold hit_column in HT. rewrite <- CB in HT.
      eexists. apply (gentry_of pg res _ _ _ x y d0 HT).
  - intros RT. destruct (G2 RT) as [x [y [_ [[P _] E]]]]. exists x, y, (cell_at g x y). destruct (HS x y P). split; auto. split; auto.
    rewrite <- CB. apply E.
Qed.
Print Assumptions C105_hit.

(** the column of cell (x, y), grown by [e] on every side (shrunk for negative [e]) *)
Definition s_column_grown (e res : R) (x y : nat) (h : R) (p : vec3 R) : Prop :=
  s_grown e (V3 (INR x * res) (INR y * res) 0) (V3 ((INR x + 1) * res) ((INR y + 1) * res) h) p.

Lemma idx_err : forall (x : nat) (res : F64) L, (Z.of_nat x <= 2 ^ 31)%Z -> is_finite res = true -> 0 < B2R res <= 10 ^ 9 -> INR x * B2R res <= L ->
  Rabs (B2R (nmul (nofZ (Z.of_nat x)) res) - INR x * B2R res) <= uro * L + bpow radix2 (-149).
Proof.
  intros x res L LX F B H. destruct (idx_R x res LX F B) as [_ [E [P _]]]. unfold nidx in E. rewrite E.
  eapply Rle_trans; [apply rnd_err|]. rewrite Rabs_right by lra.
  apply Rplus_le_compat; [apply Rmult_le_compat_l; auto; unfold uro; lra|]. unfold eta. apply bpow_le. lia.
Qed.

(** C105: hence rays that pass a column of the map at least [e] inside its faces are reported, and a reported ray passes some column of the
    map at a distance of at most [e], at the reported distance; [e] is 2.5e-7 of the extent of the scene *)
Theorem C105_margin : forall fuel (g : list (list F64)) my res hm o d t0 t1 d0 L,
  s_rect g my -> (12 * (N.of_nat (length g) + 1) * (N.of_nat my + 1) <= 2 ^ 32)%N -> from_grid fuel g res = Ret hm ->
  L <= 10 ^ 19 -> (forall x y h, s_height g x y h -> s_fin h /\ B2R h <= L) -> s_fin res -> 0 < B2R res <= 10 ^ 9 ->
  INR (length g) * B2R res <= L -> INR my * B2R res <= L ->
  s_finv o -> s_bound L (rv o) -> s_finv d -> s_rangev d -> s_fin t0 -> s_fin t1 -> B2R t0 < B2R t1 ->
  let u := rv (r_d (ray_make o d)) in s_steep u ->
  let e := 25 / 10 ^ 8 * L + bpow radix2 (-146) in
  let passes e t := exists x y h, s_height g x y h /\ 0 < B2R h /\ s_column_grown e (B2R res) x y (B2R h) (s_ray_at (rv o) u t) in
  let (hit, dist) := hm_ray hm (ray_make o d) t0 t1 d0 in
  ((exists t, B2R t0 < t < B2R t1 /\ passes (- e) t) -> hit = true) /\
  (hit = true -> (exists t, B2R t0 < t < B2R t1 /\ passes e t) /\ s_fin dist /\ passes e (B2R dist)).
Proof.
  intros fuel g my res hm o d t0 t1 d0 L R SG H BL CF FR BR GX GY FO BO FD RD F0 F1 LT u ST e passes.
  assert (CF' : forall x y h, s_height g x y h -> s_fin h /\ B2R h <= 10 ^ 20) by (intros x y h HH; destruct (CF x y h HH); split; auto; lra).
  assert (BO' : s_bound (10 ^ 20) (rv o)) by (destruct BO as [? [? ?]]; repeat split; lra).
  pose proof (C105_hit fuel g my res hm o d t0 t1 d0 R SG H CF' FR BR FO BO' FD RD F0 F1) as [G1 G2].
  assert (L0 : 0 <= L). { destruct BO as [B _]. pose proof (Rabs_pos (vx (rv o))). lra. }
  destruct (sizes31 _ _ SG) as [S1 S2]. destruct zero_R as [FZ EZ].
  set (e1 := / 8388608 * (201 / 100 * L + bpow radix2 (-140)) + bpow radix2 (-148)).
  (* one column *)
  assert (COL : forall x y h, s_height g x y h -> 0 < B2R h -> let b := s_column_box res x y h in
    let near e t := s_grown e (rv (b_min b)) (rv (b_max b)) (s_ray_at (rv o) u t) in
    let (hit, dist) := box_ray b (ray_make o d) t0 t1 d0 in
    ((exists t, B2R t0 < t < B2R t1 /\ s_column_grown (- e) (B2R res) x y (B2R h) (s_ray_at (rv o) u t)) -> hit = true) /\
    (hit = true -> (exists t, B2R t0 < t < B2R t1 /\ s_column_grown e (B2R res) x y (B2R h) (s_ray_at (rv o) u t)) /\
       s_fin dist /\ s_column_grown e (B2R res) x y (B2R h) (s_ray_at (rv o) u (B2R dist)))).
  { intros x y h HH HP b near. destruct (CF x y h HH) as [FH BH]. apply (height_cell g my) in HH; auto. destruct HH as [X [Y _]].
    assert (XL : (Z.of_nat (S x) <= 2 ^ 31)%Z) by lia. assert (YL : (Z.of_nat (S y) <= 2 ^ 31)%Z) by lia.
    assert (XR : INR (S x) * B2R res <= L). { eapply Rle_trans; [|exact GX]. apply Rmult_le_compat_r; [lra|apply le_INR; lia]. }
    assert (YR : INR (S y) * B2R res <= L). { eapply Rle_trans; [|exact GY]. apply Rmult_le_compat_r; [lra|apply le_INR; lia]. }
    assert (XR0 : INR x * B2R res <= L). { eapply Rle_trans; [|exact XR]. apply Rmult_le_compat_r; [lra|apply le_INR; lia]. }
    assert (YR0 : INR y * B2R res <= L). { eapply Rle_trans; [|exact YR]. apply Rmult_le_compat_r; [lra|apply le_INR; lia]. }
    pose proof (idx_err x res L ltac:(lia) FR BR XR0) as EX0. pose proof (idx_err y res L ltac:(lia) FR BR YR0) as EY0.
    pose proof (idx_err (S x) res L XL FR BR XR) as EX1. pose proof (idx_err (S y) res L YL FR BR YR) as EY1.
    pose proof (proj2 (proj2 (idx_R x res ltac:(lia) FR BR))) as PX0. pose proof (proj2 (proj2 (idx_R y res ltac:(lia) FR BR))) as PY0.
    pose proof (proj2 (proj2 (idx_R (S x) res XL FR BR))) as PX1. pose proof (proj2 (proj2 (idx_R (S y) res YL FR BR))) as PY1.
    destruct (node_ok res x y (S x) (S y) h FR BR XL YL ltac:(lia) ltac:(lia) FH ltac:(lra)) as [O1 [O2 [O3 [O4 O5]]]].
    change (node_box res x y (S x) (S y) h) with b in *.
    assert (BN : b_min b = V3 (nmul (nofZ (Z.of_nat x)) res) (nmul (nofZ (Z.of_nat y)) res) (nofZ 0)) by reflexivity.
    assert (BX : b_max b = V3 (nmul (nofZ (Z.of_nat (S x))) res) (nmul (nofZ (Z.of_nat (S y))) res) h) by reflexivity.
    change (nofZ 0 : F64) with (n0 : F64) in BN.
    set (D := 201 / 100 * L + bpow radix2 (-140)).
    assert (W : bpow radix2 (-140) = 512 * bpow radix2 (-149)) by (change 512 with (bpow radix2 9); rewrite <- bpow_plus; reflexivity).
    assert (W' : bpow radix2 (-148) = 2 * bpow radix2 (-149)) by (change 2 with (bpow radix2 1); rewrite <- bpow_plus; reflexivity).
    assert (W'' : bpow radix2 (-146) = 8 * bpow radix2 (-149)) by (change 8 with (bpow radix2 3); rewrite <- bpow_plus; reflexivity).
    pose proof (bpow_gt_0 radix2 (-149)) as WP.
    destruct BO as [BO1 [BO2 BO3]]. cbn [vx vy vz rv] in BO1, BO2, BO3. apply Rabs_le_inv in BO1, BO2, BO3.
    apply Rabs_le_inv in EX0, EY0, EX1, EY1. unfold uro in EX0, EY0, EX1, EY1.
    assert (CN : s_close D (rv (b_min b)) (rv o)).
    { rewrite BN. unfold s_close, D. cbn [vx vy vz rv]. rewrite EZ. repeat split; apply Rabs_le; lra. }
    assert (CX : s_close D (rv (b_max b)) (rv o)).
    { rewrite BX. unfold s_close, D. cbn [vx vy vz rv]. repeat split; apply Rabs_le; lra. }
    pose proof (C98_margin b o d t0 t1 d0 D O1 O2 FO FD RD F0 F1 LT O3 O4 BO' O5 CN CX ST) as M. cbv zeta in M.
    fold u in M. fold D in e1. change (/ 8388608 * D + bpow radix2 (-148)) with e1 in M.
    assert (E1 : forall p, s_column_grown (- e) (B2R res) x y (B2R h) p -> s_grown (- e1) (rv (b_min b)) (rv (b_max b)) p).
    { intros p. rewrite BN, BX. unfold s_column_grown, s_grown, s_in_box. cbn [vx vy vz rv]. rewrite EZ, <- !S_INR. unfold e, e1, D.
      intros [[? ?] [[? ?] [? ?]]]. repeat split; lra. }
    assert (E2 : forall p, s_grown e1 (rv (b_min b)) (rv (b_max b)) p -> s_column_grown e (B2R res) x y (B2R h) p).
    { intros p. rewrite BN, BX. unfold s_column_grown, s_grown, s_in_box. cbn [vx vy vz rv]. rewrite EZ, <- !S_INR. unfold e, e1, D.
      intros [[? ?] [[? ?] [? ?]]]. repeat split; lra. }
    clearbody b. destruct (box_ray b (ray_make o d) t0 t1 d0) as [hit dist]. destruct M as [M1 M2]. split.
    - intros [t [T1 T2]]. apply M1. exists t. split; auto.
    - intros HT. destruct (M2 HT) as [[t [T1 T2]] [T3 [T4 _]]]. split; [exists t; auto|auto]. }
  cbv zeta in COL. destruct (hm_ray hm (ray_make o d) t0 t1 d0) as [hit dist]. cbn [fst snd] in G1, G2. split.
  - intros [t [T1 [x [y [h [HH [HP T2]]]]]]]. apply G1. exists x, y, h. split; auto. split; auto. specialize (COL x y h HH HP).
    destruct (box_ray _ _ _ _ _) as [hit' dist']. destruct COL as [C _]. apply C. eauto.
  - intros HT. destruct (G2 HT) as [x [y [h [HH [HP E]]]]]. specialize (COL x y h HH HP). rewrite E in COL. destruct COL as [_ C].
    destruct (C eq_refl) as [[t [T1 T2]] [T3 T4]]. unfold passes. split; [exists t; split; [exact T1|exists x, y, h; auto]|]. split; auto. exists x, y, h. auto.
Qed.
Print Assumptions C105_margin.

(** a map of 3 x 2 cells and a ray entering it from below through the side of the cell (0, 1) *)
Definition exg : list (list F64) := [[nofZ 1; nofZ 3]; [nofZ 0; nofZ 2]; [nofZ 2; nofZ (-1)]].
Example C105_nonvacuous : let o := V3 (nofZ (-1)) (nofZ 0) (nofZ (-1)) : vec3 F64 in let d := V3 (nofZ 1) (nofZ 1) (nofZ 1) : vec3 F64 in
  exists hm, from_grid 33 exg (nofZ 1) = Ret hm /\ s_rect exg 2 /\ (forall x y h, s_height exg x y h -> s_fin h /\ B2R h <= 3) /\
  s_finv o /\ s_bound 3 (rv o) /\ s_finv d /\ s_rangev d /\ s_steep (rv (r_d (ray_make o d))) /\
  fst (hm_ray hm (ray_make o d) n0 (nofZ 10) n0) = true /\ fst (hm_ray hm (ray_make (V3 (nofZ (-1)) (nofZ 2) (nofZ (-1))) d) n0 (nofZ 10) n0) = false /\
  fst (box_ray (s_column_box (nofZ 1) 0 1 (nofZ 3)) (ray_make o d) n0 (nofZ 10) n0) = true /\
  fst (box_ray (s_column_box (nofZ 1) 1 1 (nofZ 2)) (ray_make o d) n0 (nofZ 10) n0) = true.
Proof.
  assert (Z : forall z, (Z.abs z < 2 ^ 53)%Z -> s_fin (nofZ z : F64) /\ B2R (nofZ z : F64) = IZR z) by (intros z L; exact (ofZ_R z L)).
  intros o d. destruct (Z 0%Z ltac:(lia)) as [F0 E0]. destruct (Z 1%Z ltac:(lia)) as [F1 E1]. destruct (Z (-1)%Z ltac:(lia)) as [F2 E2].
  assert (T : match from_grid 33 exg (nofZ 1) with
    | Ret hm => (fst (hm_ray hm (ray_make o d) n0 (nofZ 10) n0) && negb (fst (hm_ray hm (ray_make (V3 (nofZ (-1)) (nofZ 2) (nofZ (-1))) d) n0 (nofZ 10) n0)))%bool
    | _ => false end = true) by (vm_compute; reflexivity).
  destruct (from_grid 33 exg (nofZ 1)) as [hm| | |]; [|clear - T; discriminate T|clear - T; discriminate T|clear - T; discriminate T].
  exists hm. split; [reflexivity|]. apply andb_true_iff in T. destruct T as [T1 T2]. apply negb_true_iff in T2.
  split. { intros row I. repeat (destruct I as [<-|I]; [reflexivity|]). destruct I. }
  split.
  { assert (G : forall h, In h (concat exg) -> s_fin h /\ B2R h <= 3).
    { intros h I. cbn [exg concat app] in I. repeat (destruct I as [<-|I]; [match goal with |- s_fin (nofZ ?z) /\ _ => destruct (Z z ltac:(lia)) as [A ->] end; split; [exact A|lra]|]). destruct I. }
    intros x y h HH. apply G. destruct HH as [row [A B]]. rewrite s_nth_nth_error in A, B. apply in_concat. exists row. split; eapply nth_error_In; eauto. }
  assert (RD : s_rangev d).
  { unfold s_rangev, s_norm2, s_dot, d. cbn [rv vx vy vz]. rewrite E1. split.
    - apply Rle_trans with (bpow radix2 0); [apply bpow_le; lia|cbn; lra].
    - apply Rle_trans with (bpow radix2 2); [cbn; lra|apply bpow_le; lia]. }
  assert (FD : s_finv d) by (split; [|split]; auto).
  destruct (normalized_b _ FD RD) as [_ [C1 [C2 C3]]].
  assert (N3 : s_norm2 (rv d) = 3) by (unfold s_norm2, s_dot, d; cbn [rv vx vy vz]; rewrite E1; ring).
  assert (S2 : sqrt 3 <= 2) by (apply Rle_trans with (sqrt (2 * 2)); [apply sqrt_le_1; lra|rewrite sqrt_square; lra]). assert (S0 : 0 < sqrt 3) by (apply sqrt_lt_R0; lra).
  assert (IV : 1 / 2 <= 1 / sqrt 3) by (unfold Rdiv; rewrite !Rmult_1_l; apply Rinv_le_contravar; lra).
  unfold SpecRound.s_unit in C1, C2, C3. rewrite N3 in C1, C2, C3. unfold d in C1, C2, C3. cbn [rv vx vy vz] in C1, C2, C3. rewrite E1 in C1, C2, C3.
  assert (ST : forall x, Rabs (x - 1 / sqrt 3) <= 8 * uro -> 1 / 10 ^ 9 <= Rabs x).
  { intros x H. apply Rabs_le_inv in H. unfold uro in H. rewrite Rabs_right; lra. }
  split; [split; [|split]; auto|]. split. { unfold s_bound, o. cbn [rv vx vy vz]. rewrite E0, E2. repeat split; apply Rabs_le; lra. }
  split; [auto|]. split; [auto|]. split. { cbn [r_d ray_make]. repeat split; apply ST; auto. }
  split; [exact T1|]. split; [exact T2|]. split; vm_compute; reflexivity.
Qed.
