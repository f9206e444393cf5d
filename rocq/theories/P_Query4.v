(** Sphere against triangle: the tests of Shape::intersect(Vector3, double) *)
From Coq Require Import ZArith NArith List Bool Lia Reals Lra.
From Verif Require Import Num MathTypes Outcome Mesh Box Spec P_Tac P_Math P_Mesh P_MeshGeo ShapeQuery SpecQuery P_Query P_Query2.
Import ListNotations.
Local Open Scope R_scope.

Definition tol9 : R := 1 + 1 / 10 ^ 9.
Lemma tol9_R : (n1 + nlit 1 1000000000)%num = tol9.
Proof. unfold nlit, n1. unR. unfold tol9. simpl. lra. Qed.
Lemma tol9_val : tol9 = 1000000001 / 1000000000.
Proof. unfold tol9. lra. Qed.
Lemma seg_dist : forall p a ab t, s_dist2 p (s_ray_at a ab t) = s_dist2 p a - 2 * t * s_dot ab (s_diff p a) + t * t * s_norm2 ab.
Proof. intros. unfold s_dist2, s_ray_at, s_norm2, s_dot, s_diff. fields. ring. Qed.
Lemma norm2_pos : forall v : vec3 R, 0 <= s_norm2 v.
Proof. intros. unfold s_norm2, s_dot. nra. Qed.
Lemma norm2_zero : forall v : vec3 R, s_norm2 v = 0 -> v = V3 0 0 0.
Proof. intros [a b c] H. unfold s_norm2, s_dot in H. fields. assert (a = 0) by nra. assert (b = 0) by nra. assert (c = 0) by nra. subst. reflexivity. Qed.
Lemma checkls_R : forall p r2 a ab, checkLinesegment (T := R) p r2 a ab = true <->
  0 <= s_dot ab (s_diff p a) /\
  s_dot ab (s_diff p a) * s_dot ab (s_diff p a) / s_norm2 ab <= s_norm2 ab * tol9 /\
  s_dist2 p a - s_dot ab (s_diff p a) * s_dot ab (s_diff p a) / s_norm2 ab <= r2 * tol9.
Proof.
  intros. unfold checkLinesegment. rewrite tol9_R.
  assert (E1 : vdot ab (vsub p a) = s_dot ab (s_diff p a)) by (dvec; unmath; unspec; unfold s_diff; fields; ring).
  assert (E2 : vlength2 ab = s_norm2 ab) by (dvec; unmath; unspec; fields; ring).
  assert (E3 : vlength2 (vsub p a) = s_dist2 p a) by (dvec; unmath; unspec; fields; ring).
  rewrite E1, E2, E3. unR. destruct (Rltb (s_dot ab (s_diff p a)) 0) eqn:L.
  - apply Rltb_true in L. split; [discriminate|lra].
  - apply Rltb_false in L. rewrite andb_true_iff, !Rleb_true. split; [intros [A B]|intros [A [B C]]]; auto.
Qed.
(* accepted: some point of the segment is within the tolerance *)
Lemma checkls_sound : forall p r2 a b, checkLinesegment (T := R) p r2 a (s_diff b a) = true ->
  exists t, 0 <= t <= 1 /\ s_dist2 p (s_between a b t) <= r2 * tol9 + s_dist2 a b / 10 ^ 18.
Proof.
  intros p r2 a b H. apply checkls_R in H. destruct H as [A [B C]]. set (ab := s_diff b a) in *. set (d := s_dot ab (s_diff p a)) in *. set (L := s_norm2 ab) in *.
  assert (LE : s_dist2 a b = L) by (unfold L, ab, s_norm2, s_dot, s_diff, s_dist2; fields; ring).
  assert (BT : forall t, s_between a b t = s_ray_at a ab t) by (intros; reflexivity).
  assert (LP : 0 <= L) by apply norm2_pos. destruct (Req_dec L 0) as [Z|NZ].
  - exists 0. split; [lra|]. rewrite BT, seg_dist, LE. fold L. rewrite Z. unfold Rdiv in *.
    assert (d = 0) as D0. { unfold d. apply norm2_zero in Z. rewrite Z. unfold s_dot. fields. ring. }
    rewrite D0 in *. lra.
  - set (t := d / L) in *. assert (DT : d = t * L) by (unfold t; field; auto).
    assert (E : d * d / L = t * t * L) by (rewrite DT; field; auto). rewrite E in *.
    assert (T0 : 0 <= t) by (unfold t; apply Rmult_le_pos; [auto|apply Rlt_le, Rinv_0_lt_compat; lra]).
    assert (TT : t * t <= tol9) by (apply (Rmult_le_reg_r L); [lra|nra]). rewrite LE.
    destruct (Rle_dec t 1) as [T1|T1].
    + exists t. split; [lra|]. rewrite BT, seg_dist. fold L d. rewrite DT. assert (0 <= L / 10 ^ 18) by (apply Rmult_le_pos; [lra|left; apply Rinv_0_lt_compat, pow_lt; lra]). nra.
    + exists 1. split; [lra|]. rewrite BT, seg_dist. fold L d. rewrite DT.
      assert (T9 : t - 1 <= 1 / 10 ^ 9) by (rewrite tol9_val in TT; nra).
      assert (SQ : (t - 1) * (t - 1) <= 1 / 10 ^ 18).
      { replace (1 / 10 ^ 18) with (1 / 10 ^ 9 * (1 / 10 ^ 9)) by field. apply Rmult_le_compat; lra. }
      assert (L * ((t - 1) * (t - 1)) <= L * (1 / 10 ^ 18)) by (apply Rmult_le_compat_l; lra). lra.
Qed.
(* a segment point strictly inside the ball: an end point check or the segment check succeeds *)
Lemma checkls_complete : forall p r2 a b t, 0 <= t <= 1 -> s_dist2 p (s_between a b t) < r2 ->
  s_dist2 p a < r2 \/ s_dist2 p b < r2 \/ checkLinesegment (T := R) p r2 a (s_diff b a) = true.
Proof.
  intros p r2 a b t T H. rewrite checkls_R. set (ab := s_diff b a) in *. set (d := s_dot ab (s_diff p a)) in *. set (L := s_norm2 ab) in *.
  replace (s_between a b t) with (s_ray_at a ab t) in H by reflexivity. rewrite seg_dist in H. fold d L in H.
  assert (PB : s_dist2 p b = s_dist2 p a - 2 * d + L) by (unfold d, L, ab, s_norm2, s_dot, s_diff, s_dist2; fields; ring).
  assert (LP : 0 <= L) by apply norm2_pos.
  assert (R0 : 0 < r2).
  { pose proof (norm2_pos (s_diff p (s_ray_at a ab t))) as Q. assert (s_norm2 (s_diff p (s_ray_at a ab t)) = s_dist2 p a - 2 * t * d + t * t * L) as Q'
      by (unfold d, L, ab, s_norm2, s_dot, s_diff, s_dist2, s_ray_at; fields; ring). lra. }
  destruct (Rlt_dec (s_dist2 p a) r2) as [|NA]; [auto|]. destruct (Rlt_dec (s_dist2 p b) r2) as [|NB]; [auto|]. right. right.
  assert (TL : 0 <= t * t * L) by (apply Rmult_le_pos; nra).
  assert (D0 : 0 <= d) by (destruct (Rle_dec 0 d); auto; assert (0 <= t * - d) by (apply Rmult_le_pos; lra); lra).
  assert (DL : d <= L).
  { rewrite PB in NB. destruct (Rle_dec d L) as [|X]; auto. exfalso. assert (0 <= (1 - t) * (d - L)) by (apply Rmult_le_pos; lra). assert (0 <= (1 - t) * (1 - t) * L) by (apply Rmult_le_pos; [nra|lra]). lra. }
  assert (LN : 0 < L) by (destruct (Req_dec L 0); [|lra]; nra).
  split; auto. set (s := d / L). assert (DS : d = s * L) by (unfold s; field; lra).
  assert (E : d * d / L = s * s * L) by (rewrite DS; field; lra). rewrite E.
  assert (S01 : 0 <= s <= 1).
  { split; [unfold s; apply Rmult_le_pos; [auto|apply Rlt_le, Rinv_0_lt_compat; lra]|]. apply (Rmult_le_reg_r L); lra. }
  split.
  - rewrite tol9_val. assert (s * s <= 1) by nra. nra.
  - assert (0 <= L * ((s - t) * (s - t))) by (apply Rmult_le_pos; [lra|apply Rle_0_sqr]). rewrite tol9_val. rewrite DS in H. clear - H R0 H0. lra.
Qed.

(** ** the surface test *)
Definition cr (u v : vec3 R) : vec3 R := V3 (vy u * vz v - vz u * vy v) (vz u * vx v - vx u * vz v) (vx u * vy v - vy u * vx v).
Ltac uncr := unfold cr, s_norm2, s_dist2, s_dot, s_diff in *; fields.
(* e1, e2 the first two edges; r the point relative to the first corner *)
Definition c1 (e1 r : vec3 R) := cr e1 r.
Definition c2 (e1 e2 r : vec3 R) := cr e2 (s_diff r e1).
Definition c3 (e1 e2 r : vec3 R) := cr (V3 (- vx e1 - vx e2) (- vy e1 - vy e2) (- vz e1 - vz e2)) (V3 (vx r - vx e1 - vx e2) (vy r - vy e1 - vy e2) (vz r - vz e1 - vz e2)).
Definition e3 (e1 e2 : vec3 R) := V3 (- vx e1 - vx e2) (- vy e1 - vy e2) (- vz e1 - vz e2).
Lemma cross_prod : forall e1 e2 r, let n := cr e1 e2 in
  s_norm2 n * s_dot (c1 e1 r) (c2 e1 e2 r) = s_dot n (c1 e1 r) * s_dot n (c2 e1 e2 r) + s_dot r n * s_dot r n * s_dot e1 e2 /\
  s_norm2 n * s_dot (c2 e1 e2 r) (c3 e1 e2 r) = s_dot n (c2 e1 e2 r) * s_dot n (c3 e1 e2 r) + s_dot r n * s_dot r n * s_dot e2 (e3 e1 e2) /\
  s_norm2 n * s_dot (c3 e1 e2 r) (c1 e1 r) = s_dot n (c3 e1 e2 r) * s_dot n (c1 e1 r) + s_dot r n * s_dot r n * s_dot (e3 e1 e2) e1.
Proof. intros e1 e2 r n. unfold n, c1, c2, c3, e3. uncr. repeat split; ring. Qed.
Lemma weights_sum : forall e1 e2 r, let n := cr e1 e2 in s_dot n (c1 e1 r) + s_dot n (c2 e1 e2 r) + s_dot n (c3 e1 e2 r) = s_norm2 n.
Proof. intros e1 e2 r n. unfold n, c1, c2, c3, e3. uncr. ring. Qed.
Lemma weights_point : forall e1 e2 r, let n := cr e1 e2 in let w1 := s_dot n (c1 e1 r) in let w3 := s_dot n (c3 e1 e2 r) in
  s_norm2 n * vx r - s_dot r n * vx n = w1 * (vx e1 + vx e2) + w3 * vx e1 /\
  s_norm2 n * vy r - s_dot r n * vy n = w1 * (vy e1 + vy e2) + w3 * vy e1 /\
  s_norm2 n * vz r - s_dot r n * vz n = w1 * (vz e1 + vz e2) + w3 * vz e1.
Proof. intros e1 e2 r n. unfold n, c1, c2, c3, e3. cbv zeta. uncr. repeat split; ring. Qed.
(* at most one of the three products of consecutive edges is positive *)
Lemma edges_acute : forall e1 e2 : vec3 R, (s_dot e1 e2 <= 0 /\ s_dot e2 (e3 e1 e2) <= 0) \/ (s_dot e1 e2 <= 0 /\ s_dot (e3 e1 e2) e1 <= 0) \/ (s_dot e2 (e3 e1 e2) <= 0 /\ s_dot (e3 e1 e2) e1 <= 0).
Proof.
  intros e1 e2. pose proof (norm2_pos e1) as A. pose proof (norm2_pos e2) as B. pose proof (norm2_pos (e3 e1 e2)) as C.
  assert (E1 : s_dot e1 e2 + s_dot (e3 e1 e2) e1 = - s_norm2 e1) by (unfold e3; uncr; ring).
  assert (E2 : s_dot e1 e2 + s_dot e2 (e3 e1 e2) = - s_norm2 e2) by (unfold e3; uncr; ring).
  assert (E3 : s_dot e2 (e3 e1 e2) + s_dot (e3 e1 e2) e1 = - s_norm2 (e3 e1 e2)) by (unfold e3; uncr; ring).
  destruct (Rle_dec (s_dot e1 e2) 0), (Rle_dec (s_dot e2 (e3 e1 e2)) 0), (Rle_dec (s_dot (e3 e1 e2) e1) 0); try (exfalso; lra); tauto.
Qed.
(* the tests, in specification terms *)
Definition nrm (a b c : vec3 R) := cr (s_diff b a) (s_diff c b).
Definition foot (a b c p : vec3 R) (k : R) : vec3 R := (* relative to a *)
  V3 (vx p - vx a - k * vx (nrm a b c)) (vy p - vy a - k * vy (nrm a b c)) (vz p - vz a - k * vz (nrm a b c)).
Lemma sphere_tri_R : forall p r2 a b c, s_norm2 (nrm a b c) <> 0 -> exists k, 0 <= k /\ k * s_norm2 (nrm a b c) = Rabs (s_dot (s_diff p a) (nrm a b c)) /\
  (sphere_tri (T := R) p r2 a b c = true <->
   s_dist2 p a < r2 \/ s_dist2 p b < r2 \/ s_dist2 p c < r2 \/
   checkLinesegment (T := R) p r2 a (s_diff b a) = true \/ checkLinesegment (T := R) p r2 b (s_diff c b) = true \/ checkLinesegment (T := R) p r2 c (s_diff a c) = true \/
   (k * k * s_norm2 (nrm a b c) <= r2 /\
    0 < s_dot (c1 (s_diff b a) (foot a b c p k)) (c2 (s_diff b a) (s_diff c b) (foot a b c p k)) /\
    0 < s_dot (c2 (s_diff b a) (s_diff c b) (foot a b c p k)) (c3 (s_diff b a) (s_diff c b) (foot a b c p k)) /\
    0 < s_dot (c3 (s_diff b a) (s_diff c b) (foot a b c p k)) (c1 (s_diff b a) (foot a b c p k)))).
Proof.
  intros p r2 a b c N. set (n := nrm a b c) in *. pose proof (norm2_pos n) as NP.
  set (d := s_dot (s_diff p a) n). set (k := Rabs d / s_norm2 n). assert (KN : k * s_norm2 n = Rabs d) by (unfold k; field; auto).
  assert (K0 : 0 <= k) by (unfold k; apply Rmult_le_pos; [apply Rabs_pos|apply Rlt_le, Rinv_0_lt_compat; lra]).
  exists k. split; [auto|]. split; [exact KN|].
  unfold sphere_tri.
  assert (DS : forall x y : vec3 R, vlength2 (vsub x y) = s_dist2 y x) by (intros; dvec; unmath; unspec; ring). rewrite !DS.
  assert (VD : forall x y : vec3 R, vsub x y = s_diff x y) by (intros; unfold vsub, s_diff; unR; reflexivity).
  assert (NN : vcross (vsub b a) (vsub c b) = n) by (unfold n, nrm, cr, vcross; rewrite !VD; unR; apply V3_eq; reflexivity).
  rewrite NN. assert (N2 : vlength2 n = s_norm2 n) by (clear; dvec; unmath; unspec; ring). rewrite N2.
  assert (VDOT : forall x y : vec3 R, vdot x y = s_dot x y) by (intros; dvec; unmath; unspec; ring).
  assert (DD : vdot (vsub a p) n = - d) by (unfold d; rewrite VDOT, VD; clear; unfold s_dot, s_diff; fields; ring). rewrite DD.
  assert (PD : (- d * - d / s_norm2 n)%num = k * k * s_norm2 n).
  { unR. replace (- d * - d) with (Rabs d * Rabs d) by (rewrite <- Rabs_mult, Rabs_pos_eq by nra; ring). rewrite <- KN. field. auto. }
  change (ndiv (nmul (- d) (- d)) (s_norm2 n)) with ((- d * - d / s_norm2 n)%num). rewrite PD.
  assert (VL : vlength n = sqrt (s_norm2 n)) by (clear; dvec; unmath; unspec; f_equal; ring).
  assert (SP : 0 < sqrt (s_norm2 n)) by (apply sqrt_lt_R0; lra).
  assert (Q : vsub p (vscale (vnormalized n) (nsqrt (k * k * s_norm2 n))) = V3 (vx p - k * vx n) (vy p - k * vy n) (vz p - k * vz n)).
  { unfold vnormalized. rewrite VL. unfold vsub, vscale. unR. fields.
    assert (SQ : sqrt (k * k * s_norm2 n) = k * sqrt (s_norm2 n)) by (rewrite sqrt_mult by nra; rewrite (sqrt_square k) by auto; reflexivity).
    rewrite SQ. apply V3_eq; field; lra. }
  change (nsqrt (k * k * s_norm2 n)) with (nsqrt (T := R) (k * k * s_norm2 n)) in *. rewrite Q.
  assert (VC : forall x y : vec3 R, vcross x y = cr x y) by (intros; unfold cr, vcross; unR; apply V3_eq; ring).
  set (q := V3 (vx p - k * vx n) (vy p - k * vy n) (vz p - k * vz n)).
  rewrite (VD b a), (VD c b), (VD a c), (VD q a), (VD q b), (VD q c).
  rewrite (VC (s_diff b a) (s_diff q a)), (VC (s_diff c b) (s_diff q b)), (VC (s_diff a c) (s_diff q c)).
  rewrite (VDOT (cr (s_diff b a) (s_diff q a)) _), (VDOT (cr (s_diff c b) (s_diff q b)) _), (VDOT (cr (s_diff a c) (s_diff q c)) _).
  assert (F1 : cr (s_diff b a) (s_diff q a) = c1 (s_diff b a) (foot a b c p k)).
  { unfold c1, foot, q. fold n. f_equal. unfold s_diff. fields. apply V3_eq; ring. }
  assert (F2 : cr (s_diff c b) (s_diff q b) = c2 (s_diff b a) (s_diff c b) (foot a b c p k)).
  { unfold c2, foot, q. fold n. f_equal. unfold s_diff. fields. apply V3_eq; ring. }
  assert (F3 : cr (s_diff a c) (s_diff q c) = c3 (s_diff b a) (s_diff c b) (foot a b c p k)).
  { unfold c3, foot, q. fold n. f_equal; unfold s_diff; fields; apply V3_eq; ring. }
  rewrite F1, F2, F3.
  destruct (s_dist2 p a <? r2)%num eqn:B1; unR; [apply Rltb_true in B1; tauto|apply Rltb_false in B1].
  destruct (Rltb (s_dist2 p b) r2) eqn:B2; [apply Rltb_true in B2; tauto|apply Rltb_false in B2].
  destruct (Rltb (s_dist2 p c) r2) eqn:B3; [apply Rltb_true in B3; tauto|apply Rltb_false in B3].
  destruct (checkLinesegment p r2 a (s_diff b a)) eqn:L1; [tauto|]. destruct (checkLinesegment p r2 b (s_diff c b)) eqn:L2; [tauto|].
  destruct (checkLinesegment p r2 c (s_diff a c)) eqn:L3; [tauto|].
  destruct (Rltb r2 (k * k * s_norm2 n)) eqn:B4.
  - apply Rltb_true in B4. split; [discriminate|]. intros [X|[X|[X|[X|[X|[X|[X _]]]]]]]; try discriminate; lra.
  - apply Rltb_false in B4. rewrite !andb_true_iff, !Rltb_true. split; [intros; do 6 right; tauto|]. intros [X|[X|[X|[X|[X|[X|X]]]]]]; try discriminate; try lra; tauto.
Qed.
Lemma in_tri_a : forall a b c : vec3 R, in_triangle a b c a.
Proof. intros. exists 1, 0, 0. repeat split; try lra. destruct a; fields; apply V3_eq; ring. Qed.
Lemma in_tri_rot : forall a b c x : vec3 R, in_triangle b c a x -> in_triangle a b c x.
Proof. intros a b c x [u [v [w [U [V [W [S E]]]]]]]. exists w, u, v. repeat split; try lra. rewrite E. apply V3_eq; ring. Qed.
Lemma in_tri_edge : forall (a b c : vec3 R) t, 0 <= t <= 1 -> in_triangle a b c (s_between a b t).
Proof. intros a b c t T. exists (1 - t), t, 0. repeat split; try lra. unfold s_between. fields. apply V3_eq; ring. Qed.
Definition edges2 (a b c : vec3 R) : R := s_dist2 a b + s_dist2 b c + s_dist2 c a.
Lemma dist2_pos : forall a b : vec3 R, 0 <= s_dist2 a b.
Proof. intros. unfold s_dist2. pose proof (pow2_ge_0 (vx a - vx b)). pose proof (pow2_ge_0 (vy a - vy b)). pose proof (pow2_ge_0 (vz a - vz b)). lra. Qed.
Lemma same3 : forall w1 w2 w3 N, 0 < N -> w1 + w2 + w3 = N -> (0 < w1 * w2 /\ 0 < w2 * w3) \/ (0 < w1 * w2 /\ 0 < w3 * w1) \/ (0 < w2 * w3 /\ 0 < w3 * w1) -> 0 < w1 /\ 0 < w2 /\ 0 < w3.
Proof.
  intros w1 w2 w3 N P S H.
  assert (X : forall x y, 0 < x * y -> (0 < x /\ 0 < y) \/ (x < 0 /\ y < 0)).
  { intros x y L. destruct (Rlt_dec 0 x), (Rlt_dec 0 y); [left; auto|exfalso|exfalso|right]; nra. }
  destruct H as [[A B]|[[A B]|[A B]]]; apply X in A; apply X in B; lra.
Qed.
Lemma cross_mono : forall N dot ww g e, 0 < N -> 0 < dot -> N * dot = ww + g * g * e -> e <= 0 -> 0 < ww.
Proof. intros. assert (0 < N * dot) by (apply Rmult_lt_0_compat; auto). assert (0 <= g * g * - e) by (apply Rmult_le_pos; [apply Rle_0_sqr|lra]). lra. Qed.
Lemma tri_sound : forall p r2 a b c, 0 < r2 -> s_norm2 (nrm a b c) <> 0 -> sphere_tri (T := R) p r2 a b c = true ->
  exists x, in_triangle a b c x /\ s_dist2 p x <= r2 * tol9 + edges2 a b c / 10 ^ 18.
Proof.
  intros p r2 a b c R0 N H. destruct (sphere_tri_R p r2 a b c N) as [k [K0 [KN E]]]. apply E in H. clear E.
  pose proof (dist2_pos a b) as D1. pose proof (dist2_pos b c) as D2. pose proof (dist2_pos c a) as D3.
  assert (TL : r2 <= r2 * tol9) by (rewrite tol9_val; lra).
  assert (EDG : forall x, x <= edges2 a b c -> x / 10 ^ 18 <= edges2 a b c / 10 ^ 18).
  { intros. apply Rmult_le_compat_r; auto. left. apply Rinv_0_lt_compat, pow_lt. lra. }
  assert (EP : 0 <= edges2 a b c / 10 ^ 18) by (replace 0 with (0 / 10 ^ 18) by lra; apply EDG; unfold edges2; lra).
  destruct H as [X|[X|[X|[X|[X|[X|[KL [P1 [P2 P3]]]]]]]]].
  - exists a. split; [apply in_tri_a|lra].
  - exists b. split; [apply in_tri_rot, in_tri_a|lra].
  - exists c. split; [apply in_tri_rot, in_tri_rot, in_tri_a|lra].
  - apply checkls_sound in X. destruct X as [t [T X]]. exists (s_between a b t). split; [apply in_tri_edge; auto|]. assert (Y := EDG (s_dist2 a b)). unfold edges2 in *. lra.
  - apply checkls_sound in X. destruct X as [t [T X]]. exists (s_between b c t). split; [apply in_tri_rot, in_tri_edge; auto|]. assert (Y := EDG (s_dist2 b c)). unfold edges2 in *. lra.
  - apply checkls_sound in X. destruct X as [t [T X]]. exists (s_between c a t). split; [apply in_tri_rot, in_tri_rot, in_tri_edge; auto|]. assert (Y := EDG (s_dist2 c a)). unfold edges2 in *. lra.
  - set (e1 := s_diff b a) in *. set (e2 := s_diff c b) in *. set (r := foot a b c p k) in *. set (n := nrm a b c) in *. pose proof (norm2_pos n) as NP. assert (NN : 0 < s_norm2 n) by lra.
    destruct (cross_prod e1 e2 r) as [C1 [C2 C3]]. pose proof (weights_sum e1 e2 r) as WS. destruct (weights_point e1 e2 r) as [WX [WY WZ]].
    change (cr e1 e2) with n in *. cbv zeta in *.
    set (w1 := s_dot n (c1 e1 r)) in *. set (w2 := s_dot n (c2 e1 e2 r)) in *. set (w3 := s_dot n (c3 e1 e2 r)) in *. set (G := s_dot r n) in *.
    assert (W : 0 < w1 /\ 0 < w2 /\ 0 < w3).
    { apply (same3 w1 w2 w3 (s_norm2 n)); auto.
      pose proof (cross_mono _ _ _ _ _ NN P1 C1) as M1. pose proof (cross_mono _ _ _ _ _ NN P2 C2) as M2. pose proof (cross_mono _ _ _ _ _ NN P3 C3) as M3.
      destruct (edges_acute e1 e2) as [[A B]|[[A B]|[A B]]]; auto. }
    destruct W as [W1 [W2 W3]].
    assert (DP : s_dot (s_diff p a) n = k * s_norm2 n + G) by (unfold G, r, foot; fold n; unfold s_norm2, s_dot, s_diff; fields; ring).
    exists (V3 (vx a + (vx r - G / s_norm2 n * vx n)) (vy a + (vy r - G / s_norm2 n * vy n)) (vz a + (vz r - G / s_norm2 n * vz n))). split.
    + exists (w2 / s_norm2 n), (w3 / s_norm2 n), (w1 / s_norm2 n). repeat split; try (apply Rmult_le_pos; [lra|left; apply Rinv_0_lt_compat; auto]).
      * transitivity ((w1 + w2 + w3) / s_norm2 n); [field; auto|rewrite WS; field; auto].
      * assert (LIN : forall ra na aa ba ca x1 x2, x1 = ba - aa -> x2 = ca - ba -> s_norm2 n * ra - G * na = w1 * (x1 + x2) + w3 * x1 ->
          aa + (ra - G / s_norm2 n * na) = w2 / s_norm2 n * aa + w3 / s_norm2 n * ba + w1 / s_norm2 n * ca).
        { intros ra na aa ba ca x1 x2 -> -> L. apply (Rmult_eq_reg_r (s_norm2 n)); auto. field_simplify; auto. replace w2 with (s_norm2 n - w1 - w3) by lra. lra. }
        apply V3_eq; [apply (LIN _ _ _ _ _ (vx e1) (vx e2))|apply (LIN _ _ _ _ _ (vy e1) (vy e2))|apply (LIN _ _ _ _ _ (vz e1) (vz e2))]; auto.
    + assert (DI : s_dist2 p (V3 (vx a + (vx r - G / s_norm2 n * vx n)) (vy a + (vy r - G / s_norm2 n * vy n)) (vz a + (vz r - G / s_norm2 n * vz n))) = (k + G / s_norm2 n) ^ 2 * s_norm2 n).
      { unfold s_dist2. fields. set (g := G / s_norm2 n). unfold r, foot. fold n. fields. unfold s_norm2, s_dot. ring. }
      rewrite DI. replace ((k + G / s_norm2 n) ^ 2 * s_norm2 n) with ((k * s_norm2 n + G) * (k * s_norm2 n + G) / s_norm2 n) by (field; auto).
      rewrite <- DP. replace (s_dot (s_diff p a) n * s_dot (s_diff p a) n) with (k * s_norm2 n * (k * s_norm2 n)).
      * replace (k * s_norm2 n * (k * s_norm2 n) / s_norm2 n) with (k * k * s_norm2 n) by (field; auto). lra.
      * rewrite KN. rewrite <- Rabs_mult. rewrite Rabs_pos_eq; auto. apply Rle_0_sqr.
Qed.
Lemma first_zero : forall u U, 0 <= u -> exists t0, 0 <= t0 <= 1 /\ (forall t, 0 <= t <= t0 -> 0 <= (1 - t) * u + t * U) /\ ((1 - t0) * u + t0 * U = 0 \/ (t0 = 1 /\ 0 < U)).
Proof.
  intros u U P. destruct (Rlt_dec 0 U) as [L|L].
  - exists 1. split; [lra|]. split; [intros; nra|right; lra].
  - destruct (Req_dec (u - U) 0) as [Z|Z].
    + exists 0. split; [lra|]. split; [intros; replace t with 0 by lra; lra|left; lra].
    + assert (UP : 0 < u - U) by lra. assert (E : u / (u - U) * (u - U) = u) by (field; auto). set (t0 := u / (u - U)) in *.
      assert (0 <= t0) by (unfold t0; apply Rmult_le_pos; [auto|left; apply Rinv_0_lt_compat; auto]). exists t0. split; [split; [auto|nra]|]. split; [intros; nra|left; lra].
Qed.
Lemma first_exit : forall u v w U V W, 0 <= u -> 0 <= v -> 0 <= w -> U <= 0 \/ V <= 0 \/ W <= 0 -> exists t, 0 <= t <= 1 /\
  0 <= (1 - t) * u + t * U /\ 0 <= (1 - t) * v + t * V /\ 0 <= (1 - t) * w + t * W /\
  ((1 - t) * u + t * U = 0 \/ (1 - t) * v + t * V = 0 \/ (1 - t) * w + t * W = 0).
Proof.
  intros u v w U V W P1 P2 P3 H. destruct (first_zero u U P1) as [t1 [T1 [F1 Z1]]]. destruct (first_zero v V P2) as [t2 [T2 [F2 Z2]]]. destruct (first_zero w W P3) as [t3 [T3 [F3 Z3]]].
  assert (M : exists t, 0 <= t /\ t <= t1 /\ t <= t2 /\ t <= t3 /\ (t = t1 \/ t = t2 \/ t = t3)).
  { destruct (Rle_dec t1 t2), (Rle_dec t2 t3), (Rle_dec t1 t3); try (exists t1; repeat split; auto; lra); try (exists t2; repeat split; auto; lra); exists t3; repeat split; auto; lra. }
  destruct M as [t [A [B [C [D E]]]]]. exists t. split; [lra|]. split; [apply F1; lra|]. split; [apply F2; lra|]. split; [apply F3; lra|].
  assert (ONE : t = 1 -> (1 - t) * u + t * U = 0 \/ (1 - t) * v + t * V = 0 \/ (1 - t) * w + t * W = 0).
  { intros X. destruct H as [H|[H|H]]; [left; destruct Z1 as [Z|Z]; [replace t with t1 by lra; auto|lra]|right; left; destruct Z2 as [Z|Z]; [replace t with t2 by lra; auto|lra]|right; right; destruct Z3 as [Z|Z]; [replace t with t3 by lra; auto|lra]]. }
  destruct E as [-> | [-> | ->]].
  - destruct Z1 as [Z|[Z _]]; [left; auto|apply ONE; auto].
  - destruct Z2 as [Z|[Z _]]; [right; left; auto|apply ONE; auto].
  - destruct Z3 as [Z|[Z _]]; [right; right; auto|apply ONE; auto].
Qed.
(* a ball around p strictly reaching a point of an edge is accepted, from any side *)
Lemma tri_edge : forall p r2 a b c t x, s_norm2 (nrm a b c) <> 0 -> 0 <= t <= 1 -> (x = s_between a b t \/ x = s_between b c t \/ x = s_between c a t) -> s_dist2 p x < r2 ->
  sphere_tri (T := R) p r2 a b c = true.
Proof.
  intros p r2 a b c t x N T X D. destruct (sphere_tri_R p r2 a b c N) as [k [K0 [KN E]]]. apply E. clear E.
  destruct X as [-> | [-> | ->]]; apply checkls_complete in D; auto; tauto.
Qed.
Lemma edge_point : forall (a b c : vec3 R) u v w, 0 <= u -> 0 <= v -> 0 <= w -> u + v + w = 1 -> u = 0 \/ v = 0 \/ w = 0 -> exists t, 0 <= t <= 1 /\
  let x := V3 (u * vx a + v * vx b + w * vx c) (u * vy a + v * vy b + w * vy c) (u * vz a + v * vz b + w * vz c) in
  x = s_between a b t \/ x = s_between b c t \/ x = s_between c a t.
Proof.
  intros a b c u v w U V W S [Z|[Z|Z]]; subst.
  - exists w. split; [lra|]. right. left. replace v with (1 - w) by lra. unfold s_between. apply V3_eq; ring.
  - exists u. split; [lra|]. right. right. replace w with (1 - u) by lra. unfold s_between. apply V3_eq; ring.
  - exists v. split; [lra|]. left. replace u with (1 - v) by lra. unfold s_between. apply V3_eq; ring.
Qed.
Lemma height_nrm : forall a b c x, s_height a b c x = s_dot (s_diff x a) (nrm a b c).
Proof. intros. unfold nrm. unfold s_height, s_det. uncr. ring. Qed.
Lemma cauchy : forall u v : vec3 R, s_dot u v * s_dot u v <= s_norm2 u * s_norm2 v.
Proof.
  intros u v. pose proof (norm2_pos (cr u v)) as P. assert (E : s_norm2 u * s_norm2 v - s_dot u v * s_dot u v = s_norm2 (cr u v)) by (uncr; ring). lra.
Qed.
(* a ball strictly reaching the triangle is accepted unless its centre is behind the triangle *)
Lemma tri_front : forall p r2 a b c x, s_norm2 (nrm a b c) <> 0 -> 0 <= s_height a b c p -> in_triangle a b c x -> s_dist2 p x < r2 -> sphere_tri (T := R) p r2 a b c = true.
Proof.
  intros p r2 a b c x N H [u [v [w [U [V [W [S X]]]]]]] D. destruct (sphere_tri_R p r2 a b c N) as [k [K0 [KN E]]].
  rewrite <- height_nrm, (Rabs_pos_eq _ H), height_nrm in KN.
  set (e1 := s_diff b a) in *. set (e2 := s_diff c b) in *. set (n := nrm a b c) in *. pose proof (norm2_pos n) as NP. assert (NN : 0 < s_norm2 n) by lra.
  remember (foot a b c p k) as r eqn:RE.
  destruct (cross_prod e1 e2 r) as [C1 [C2 C3]]. pose proof (weights_sum e1 e2 r) as WS. destruct (weights_point e1 e2 r) as [WX [WY WZ]].
  change (cr e1 e2) with n in *. cbv zeta in *.
  assert (G0 : s_dot r n = 0). { assert (s_dot r n = s_dot (s_diff p a) n - k * s_norm2 n) as G by (rewrite RE; unfold foot; fold n; unfold s_norm2, s_dot, s_diff; fields; ring). lra. }
  rewrite G0 in *.
  set (w1 := s_dot n (c1 e1 r)) in *. set (w2 := s_dot n (c2 e1 e2 r)) in *. set (w3 := s_dot n (c3 e1 e2 r)) in *.
  (* the foot of the perpendicular, and the distances *)
  set (q := V3 (vx a + vx r) (vy a + vy r) (vz a + vz r)).
  assert (PQ : forall y, s_dot (s_diff y a) n = 0 -> s_dist2 p y = k * k * s_norm2 n + s_dist2 q y).
  { intros y Y. assert (s_dist2 p y = k * k * s_norm2 n + s_dist2 q y + 2 * k * (s_dot r n - s_dot (s_diff y a) n)) as Z.
    { unfold q. rewrite RE. unfold foot. fold n. unfold s_dist2, s_norm2, s_dot, s_diff. fields. ring. } rewrite Z, G0, Y. ring. }
  assert (PLA : forall u v w, u + v + w = 1 -> s_dot (s_diff (V3 (u * vx a + v * vx b + w * vx c) (u * vy a + v * vy b + w * vy c) (u * vz a + v * vz b + w * vz c)) a) n = 0).
  { intros u0 v0 w0 S0. replace u0 with (1 - v0 - w0) by lra. clear. unfold n, nrm. uncr. ring. }
  assert (DX : s_dist2 p x = k * k * s_norm2 n + s_dist2 q x) by (apply PQ; rewrite X; apply PLA; auto).
  pose proof (dist2_pos q x) as DQ.
  assert (EXIT : w2 <= 0 \/ w3 <= 0 \/ w1 <= 0 -> sphere_tri (T := R) p r2 a b c = true).
  { intros OUT. assert (IN : 0 < / s_norm2 n) by (apply Rinv_0_lt_compat; auto).
    destruct (first_exit u v w (w2 / s_norm2 n) (w3 / s_norm2 n) (w1 / s_norm2 n) U V W) as [t [T [Y1 [Y2 [Y3 Y0]]]]]; [unfold Rdiv; destruct OUT as [O|[O|O]]; [left|right; left|right; right]; nra|].
    assert (WN : w2 / s_norm2 n + w3 / s_norm2 n + w1 / s_norm2 n = 1) by (transitivity ((w1 + w2 + w3) / s_norm2 n); [field; auto|rewrite WS; field; auto]).
    set (U' := w2 / s_norm2 n) in *. set (V' := w3 / s_norm2 n) in *. set (W' := w1 / s_norm2 n) in *.
    set (u' := (1 - t) * u + t * U') in *. set (v' := (1 - t) * v + t * V') in *. set (w' := (1 - t) * w + t * W') in *.
    assert (S' : u' + v' + w' = 1). { assert (u' + v' + w' = (1 - t) * (u + v + w) + t * (U' + V' + W')) as SE by (unfold u', v', w'; ring). rewrite SE, S, WN. ring. }
    destruct (edge_point a b c u' v' w' Y1 Y2 Y3 S' Y0) as [s [SS Z]]. cbv zeta in Z.
    set (y := V3 (u' * vx a + v' * vx b + w' * vx c) (u' * vy a + v' * vy b + w' * vy c) (u' * vz a + v' * vz b + w' * vz c)) in *.
    apply (tri_edge p r2 a b c s y N SS Z). rewrite (PQ y) by (apply PLA; auto).
    assert (QC : q = V3 (U' * vx a + V' * vx b + W' * vx c) (U' * vy a + V' * vy b + W' * vy c) (U' * vz a + V' * vz b + W' * vz c)).
    { assert (LIN : forall ra na aa ba ca x1 x2, x1 = ba - aa -> x2 = ca - ba -> s_norm2 n * ra - 0 * na = w1 * (x1 + x2) + w3 * x1 -> aa + ra = U' * aa + V' * ba + W' * ca).
      { intros ra na aa ba ca x1 x2 -> -> L. replace U' with (1 - V' - W') by lra. unfold V', W'. apply (Rmult_eq_reg_r (s_norm2 n)); auto. field_simplify; auto. lra. }
      unfold q. apply V3_eq; [apply (LIN _ (vx n) _ _ _ (vx e1) (vx e2))|apply (LIN _ (vy n) _ _ _ (vy e1) (vy e2))|apply (LIN _ (vz n) _ _ _ (vz e1) (vz e2))]; auto. }
    assert (QY : s_dist2 q y = (1 - t) * (1 - t) * s_dist2 q x).
    { rewrite QC, X. unfold y, u', v', w'. clear. unfold s_dist2. fields. ring. }
    assert ((1 - t) * (1 - t) * s_dist2 q x <= 1 * s_dist2 q x) by (apply Rmult_le_compat_r; [auto|nra]). lra. }
  destruct (Rlt_dec 0 w1) as [W1|W1]; [|apply EXIT; lra]. destruct (Rlt_dec 0 w2) as [W2|W2]; [|apply EXIT; lra]. destruct (Rlt_dec 0 w3) as [W3|W3]; [|apply EXIT; lra].
  apply E. do 6 right. split; [lra|].
  assert (PM : forall N dot x y e, 0 < N -> 0 < x -> 0 < y -> N * dot = x * y + 0 * 0 * e -> 0 < dot).
  { intros N1 dot x1 y1 e NN1 X1 Y1 Q. assert (0 < x1 * y1) by (apply Rmult_lt_0_compat; auto). apply (Rmult_lt_reg_l N1); auto. lra. }
  split; [apply (PM _ _ _ _ _ NN W1 W2 C1)|]. split; [apply (PM _ _ _ _ _ NN W2 W3 C2)|apply (PM _ _ _ _ _ NN W3 W1 C3)].
Qed.
