(** Metric facts about src/Mesh.cpp and src/Triangle.cpp over the reals. *)
From Coq Require Import ZArith NArith List Bool Lia Reals Lra Psatz.
From Flocq Require Import Core.Raux.
From Verif Require Import Num MathTypes Outcome Mesh Spec NumOrd P_Tac P_Math P_Rot P_Mesh P_MeshFilter.
Import ListNotations.
Local Open Scope R_scope.

Lemma runmax_R : forall (l : list R) a,
  a <= s_runmax a l /\ (forall x, In x l -> x <= s_runmax a l) /\ (s_runmax a l = a \/ In (s_runmax a l) l).
Proof.
  induction l as [|x r IH]; intros a; cbn [s_runmax].
  - split; [lra|]. split; [intros x []|auto].
  - unR. rcase.
    + destruct (IH x) as [A [B C]]. split; [lra|]. split.
      * intros y [<-|Y]; auto.
      * right. destruct C as [C|C]; [left|right]; auto.
    + destruct (IH a) as [A [B C]]. split; [lra|]. split.
      * intros y [<-|Y]; auto. lra.
      * destruct C as [C|C]; auto. right. right. auto.
Qed.

Lemma vlength2_norm2 : forall v : vec3 R, vlength2 v = s_norm2 v.
Proof. intros; dvec. reflexivity. Qed.
Lemma norm2_nonneg : forall v : vec3 R, 0 <= s_norm2 v.
Proof. intros [x y z]. unspec. nra. Qed.

Lemma radius_sq : forall pts : list (vec3 R),
  (forall p, In p pts -> s_norm2 p <= s_fresh pts) /\
  (pts = [] /\ s_fresh pts = 0 \/ exists p, In p pts /\ s_norm2 p = s_fresh pts) /\ 0 <= s_fresh pts.
Proof.
  intros pts. unfold s_fresh. destruct (runmax_R (map vlength2 pts) n0) as [A [B C]]. unfold n0 in *.
  change (nofZ 0 : R) with 0 in *. split; [|split].
  - intros p P. rewrite <- vlength2_norm2. apply B. apply in_map. auto.
  - destruct pts as [|p r]; [left; auto|right]. destruct C as [C|C].
    + exists p. split; [left; auto|]. rewrite C. apply Rle_antisym; [|apply norm2_nonneg].
      rewrite <- vlength2_norm2. eapply Rle_trans; [|right; exact C]. apply B. left. auto.
    + apply in_map_iff in C. destruct C as [q [Q1 Q2]]. exists q. rewrite <- vlength2_norm2. auto.
  - exact A.
Qed.

Lemma dot_le : forall (a b : vec3 R) r2, s_norm2 a <= r2 -> s_norm2 b <= r2 -> s_dot a b <= r2.
Proof. intros [x y z] [x' y' z'] r2. intros. unspec.
  pose proof (Rle_0_sqr (x-x')). pose proof (Rle_0_sqr (y-y')). pose proof (Rle_0_sqr (z-z')). unfold Rsqr in *. lra. Qed.

Lemma convex_norm : forall (a b c p : vec3 R) r2, s_norm2 a <= r2 -> s_norm2 b <= r2 -> s_norm2 c <= r2 ->
  in_triangle a b c p -> s_norm2 p <= r2.
Proof.
  intros a b c p r2 A B C [u [v [w [U [V [W [S ->]]]]]]].
  pose proof (dot_le _ _ _ A B) as AB. pose proof (dot_le _ _ _ A C) as AC. pose proof (dot_le _ _ _ B C) as BC.
  unfold s_norm2 in *.
  replace (s_dot _ _) with (u*u * s_dot a a + v*v * s_dot b b + w*w * s_dot c c
     + 2*(u*v) * s_dot a b + 2*(u*w) * s_dot a c + 2*(v*w) * s_dot b c) by (dvec; unspec; ring).
  assert (0 <= u*v) by nra. assert (0 <= u*w) by nra. assert (0 <= v*w) by nra.
  assert (0 <= u*u) by nra. assert (0 <= v*v) by nra. assert (0 <= w*w) by nra.
  replace r2 with ((u+v+w)*(u+v+w)*r2) by (rewrite S; ring).
  assert (u*u*s_dot a a <= u*u*r2) by (apply Rmult_le_compat_l; auto).
  assert (v*v*s_dot b b <= v*v*r2) by (apply Rmult_le_compat_l; auto).
  assert (w*w*s_dot c c <= w*w*r2) by (apply Rmult_le_compat_l; auto).
  assert (u*v*s_dot a b <= u*v*r2) by (apply Rmult_le_compat_l; auto).
  assert (u*w*s_dot a c <= u*w*r2) by (apply Rmult_le_compat_l; auto).
  assert (v*w*s_dot b c <= v*w*r2) by (apply Rmult_le_compat_l; auto).
  lra.
Qed.

Lemma soup_in : forall (pts : list (vec3 R)) ts l a b c, s_soup pts ts = Some l -> In (a, b, c) l ->
  In a pts /\ In b pts /\ In c pts.
Proof.
  induction ts as [|[[i j] k] r IH]; cbn; intros l a b c H I.
  - injection H as <-. destruct I.
  - rewrite !s_nth_nth_error in H.
    destruct (nth_error pts (N.to_nat i)) eqn:E1; [|discriminate].
    destruct (nth_error pts (N.to_nat j)) eqn:E2; [|discriminate].
    destruct (nth_error pts (N.to_nat k)) eqn:E3; [|discriminate].
    destruct (s_soup pts r) eqn:E4; [|discriminate]. injection H as <-.
    destruct I as [[= <- <- <-]|I]; [|eauto].
    repeat split; eapply nth_error_In; eauto.
Qed.

(** truncation *)
Lemma trunc_bounds : forall x, Rabs (IZR (Ztrunc x)) <= Rabs x < Rabs (IZR (Ztrunc x)) + 1 /\ 0 <= x * IZR (Ztrunc x).
Proof.
  intros x. destruct (Rlt_or_le x 0) as [H|H].
  - rewrite Ztrunc_ceil by lra. pose proof (Zceil_ub x). pose proof (Zceil_lb x).
    assert (Zceil x <= 0)%Z by (apply Zceil_glb; simpl; lra). apply IZR_le in H2.
    rewrite !Rabs_left1 by lra. split; [lra|]. nra.
  - rewrite Ztrunc_floor by lra. pose proof (Zfloor_ub x). pose proof (Zfloor_lb x).
    assert (0 <= Zfloor x)%Z by (apply Zfloor_lub; simpl; lra). apply IZR_le in H2.
    rewrite !Rabs_pos_eq by lra. split; [lra|]. nra.
Qed.
Lemma trunc_unique : forall x z, Rabs (IZR z) <= Rabs x < Rabs (IZR z) + 1 -> 0 <= x * IZR z -> Ztrunc x = z.
Proof.
  intros x z H S. destruct (Rlt_or_le x 0) as [G|G].
  - rewrite (Rabs_left x) in H by lra. rewrite Ztrunc_ceil by lra. 
    assert (IZR z <= 0) by nra. rewrite Rabs_left1 in H by lra. apply Zceil_imp. rewrite minus_IZR. lra.
  - rewrite (Rabs_pos_eq x) in H by lra. rewrite Ztrunc_floor by lra.
    assert (0 <= IZR z). { destruct (Req_dec x 0) as [->|]. unfold Rabs in H; destruct (Rcase_abs (IZR z)); lra. nra. }
    rewrite Rabs_pos_eq in H by lra. apply Zfloor_imp. rewrite plus_IZR. lra.
Qed.

Lemma trunc_close : forall x y, Ztrunc x = Ztrunc y -> Rabs (x - y) < 2 /\ (Ztrunc x <> 0%Z -> Rabs (x - y) < 1).
Proof.
  intros x y E. destruct (trunc_bounds x) as [A A'], (trunc_bounds y) as [B B']. rewrite E in *.
  set (z := Ztrunc y) in *. clearbody z. unfold Rabs in *.
  destruct (Z.eq_dec z 0) as [->|N].
  - split; [|lia]. repeat destruct Rcase_abs; lra.
  - assert (IZR z <= -1 \/ 1 <= IZR z).
    { destruct (Z_lt_le_dec z 0); [left|right]; apply IZR_le; lia. }
    split; repeat destruct Rcase_abs; try lra; try (exfalso; nra); nra.
Qed.

(** the key of a point: millimetre coordinates truncated towards zero *)
Definition mm_cell (x : R) (z : Z) : Prop :=
  Rabs (IZR z) <= Rabs (1000 * x) < Rabs (IZR z) + 1 /\ 0 <= x * IZR z.
Definition int_range (z : Z) : Prop := (- 2^31 <= z < 2^31)%Z.

Lemma toint_R : forall x z, toint (nofZ 1000 * x)%num = Some z <-> mm_cell x z /\ int_range z.
Proof.
  intros x z. unfold toint, mm_cell, int_range. unR. split.
  - destruct (_ && _)%bool eqn:E; [|discriminate]. intros [= <-].
    apply andb_prop in E. rewrite !Z.leb_le in E. split; [|lia]. pose proof (trunc_bounds (1000*x)) as [A B].
    split; auto. set (k := IZR (Ztrunc (1000 * x))) in *. nra.
  - intros [[A B] C]. rewrite (trunc_unique (1000*x) z) by (auto; nra).
    destruct (_ && _)%bool eqn:E; auto. apply andb_false_iff in E. rewrite !Z.leb_gt in E. lia.
Qed.

Lemma vert_key_R : forall (v : vec3 R) a b c, vert_key v = Some (a, b, c) <->
  (mm_cell (vx v) a /\ int_range a) /\ (mm_cell (vy v) b /\ int_range b) /\ (mm_cell (vz v) c /\ int_range c).
Proof.
  intros v a b c. unfold vert_key. rewrite <- !toint_R.
  destruct (toint _), (toint (nofZ 1000 * vy v)%num), (toint (nofZ 1000 * vz v)%num); split;
    try (intros [= <- <- <-]; auto); intros [? [? ?]]; congruence.
Qed.

Lemma cell_close : forall x y z, mm_cell x z -> mm_cell y z -> Rabs (x - y) < 2/1000 /\ (z <> 0%Z -> Rabs (x - y) < 1/1000).
Proof.
  intros x y z [A A'] [B B'].
  assert (EX : Ztrunc (1000*x) = z) by (apply trunc_unique; auto; nra).
  assert (EY : Ztrunc (1000*y) = z) by (apply trunc_unique; auto; nra).
  destruct (trunc_close (1000*x) (1000*y)) as [H1 H2]; [congruence|].
  replace (1000*x - 1000*y) with (1000*(x-y)) in * by ring. rewrite Rabs_mult, (Rabs_pos_eq 1000) in * by lra.
  rewrite EX in *. split; [lra|]. intros N. specialize (H2 N). lra.
Qed.

(** triangles *)
Lemma normal_R : forall p1 p2 p3 : vec3 R,
  let n := vnormalized (vcross (vsub p3 p1) (vsub p2 p1)) in
  s_norm2 (vcross (vsub p3 p1) (vsub p2 p1)) <> 0 ->
  s_norm2 n = 1 /\ s_dot n (vsub p2 p1) = 0 /\ s_dot n (vsub p3 p1) = 0 /\ s_det (vsub p2 p1) (vsub p3 p1) n < 0.
Proof.
  intros p1 p2 p3 n H. unfold n. destruct (vnormalized_unit _ H) as [A [k [K E]]].
  set (u := vnormalized (vcross (vsub p3 p1) (vsub p2 p1))) in *. set (a := vsub p2 p1) in *. set (b := vsub p3 p1) in *.
  split; auto.
  assert (D1 : s_dot (vcross b a) a = 0) by (clear; dvec; unmath; unspec; ring).
  assert (D2 : s_dot (vcross b a) b = 0) by (clear; dvec; unmath; unspec; ring).
  assert (D3 : s_det a b (vcross b a) = - s_norm2 (vcross b a)) by (clear; dvec; unmath; unspec; ring).
  assert (L1 : forall (x : vec3 R), s_dot (vscale u k) x = k * s_dot u x) by (clear; intros; dvec; unmath; unspec; ring).
  assert (L2 : s_det a b (vscale u k) = k * s_det a b u) by (clear; dvec; unmath; unspec; ring).
  assert (P : 0 < s_norm2 (vcross b a)) by (pose proof (norm2_nonneg (vcross b a)); lra).
  rewrite E in D1, D2, D3. rewrite L1 in D1, D2. rewrite L2 in D3. rewrite <- E in D3.
  repeat split; nra.
Qed.

Definition collinear (p1 p2 p3 : vec3 R) : Prop := exists (o d : vec3 R) r s t,
  p1 = vadd o (vscale d r) /\ p2 = vadd o (vscale d s) /\ p3 = vadd o (vscale d t).

Lemma norm2_zero : forall v : vec3 R, s_norm2 v = 0 <-> v = V3 0 0 0.
Proof. intros [x y z]. unspec. split. intros. apply V3_eq; nra. intros [= -> -> ->]. ring. Qed.

Lemma cross_zero_collinear : forall p1 p2 p3 : vec3 R,
  s_norm2 (vcross (vsub p1 p2) (vsub p1 p3)) = 0 <-> collinear p1 p2 p3.
Proof.
  intros p1 p2 p3. split.
  - intros H. apply norm2_zero in H. destruct p1 as [a b c], p2 as [x y z], p3 as [u v w].
    unmath. injection H as H1 H2 H3.
    destruct (Req_dec a x) as [E1|N1].
    destruct (Req_dec b y) as [E2|N2].
    destruct (Req_dec c z) as [E3|N3].
    + exists (V3 a b c), (V3 (u-a) (v-b) (w-c)), 0, 0, 1. unmath. subst. repeat split; apply V3_eq; ring.
    + exists (V3 a b c), (V3 (x-a) (y-b) (z-c)), 0, 1, ((w-c)/(z-c)). unmath. subst.
      repeat split; apply V3_eq; try (field; lra).
      * clear - N3 H2. apply Rmult_eq_reg_r with (z-c); [field_simplify; lra|lra].
      * clear - N3 H1. apply Rmult_eq_reg_r with (z-c); [field_simplify; lra|lra].
    + exists (V3 a b c), (V3 (x-a) (y-b) (z-c)), 0, 1, ((v-b)/(y-b)). unmath. subst.
      repeat split; apply V3_eq; try (field; lra).
      * clear - N2 H3. apply Rmult_eq_reg_r with (y-b); [field_simplify; lra|lra].
      * clear - N2 H1. apply Rmult_eq_reg_r with (y-b); [field_simplify; lra|lra].
    + exists (V3 a b c), (V3 (x-a) (y-b) (z-c)), 0, 1, ((u-a)/(x-a)). unmath.
      repeat split; apply V3_eq; try (field; lra).
      * clear - N1 H3. apply Rmult_eq_reg_r with (x-a); [field_simplify; lra|lra].
      * clear - N1 H2. apply Rmult_eq_reg_r with (x-a); [field_simplify; lra|lra].
  - intros [o [d [r [s [t [-> [-> ->]]]]]]]. dvec; unmath; unspec; ring.
Qed.

(** Gram determinant: squared area of the parallelogram, without cross products *)
Definition gram (a b : vec3 R) : R := s_dot a a * s_dot b b - s_dot a b * s_dot a b.
Lemma area_R : forall p1 p2 p3 : vec3 R,
  0 <= triangleArea p1 p2 p3 /\ (2 * triangleArea p1 p2 p3) ^ 2 = gram (vsub p2 p1) (vsub p3 p1).
Proof.
  intros. unfold triangleArea. unR. pose proof (vlength_nonneg (vcross (vsub p1 p2) (vsub p1 p3))) as N.
  pose proof (vlength_sq (vcross (vsub p1 p2) (vsub p1 p3))) as S.
  set (L := vlength _) in *. split; [lra|].
  replace ((2 * (5/10*L))^2) with (L*L) by field. rewrite S. clear. dvec; unfold gram; unmath; unspec; ring.
Qed.
Lemma area_zero : forall p1 p2 p3 : vec3 R, triangleArea p1 p2 p3 = 0 <-> collinear p1 p2 p3.
Proof.
  intros. rewrite <- cross_zero_collinear. rewrite <- vlength_sq. unfold triangleArea. unR.
  set (L := vlength _). split; intros; nra.
Qed.
