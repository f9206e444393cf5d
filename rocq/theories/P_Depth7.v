(** * Depth camera over the reals: near plane clipping and projection of triangles *)
From Coq Require Import ZArith NArith List Bool Lia Reals Lra Permutation.
From Flocq Require Import Core.Raux.
From Verif Require Import Num NumOrd MathTypes Outcome Mesh Spec P_Tac P_Math P_MeshGeo Depth P_Depth P_Depth3 P_Depth4 SpecDepth P_Depth5.
Import ListNotations.
Local Open Scope R_scope.

Definition s_mul (k : R) (v : vec3 R) : vec3 R := V3 (k * vx v) (k * vy v) (k * vz v).
Lemma near_R : near_clip = -1 / 10. Proof. reflexivity. Qed.

Lemma clip_edge_R : forall v w : vec3 R, vz v < near_clip -> near_clip <= vz w ->
  let t := (near_clip - vz v) / (vz w - vz v) in 0 < t <= 1 /\ clip_edge v w = V3 (vx v + t * (vx w - vx v)) (vy v + t * (vy w - vy v)) (vz v + t * (vz w - vz v)).
Proof.
  intros v w V W t. unfold clip_edge, vsub. cbn [vx vy vz]. assert (D : 0 < vz w - vz v) by lra.
  split. { split; [apply Rmult_lt_0_compat; [lra|apply Rinv_0_lt_compat; lra]|]. apply Rmult_le_reg_r with (vz w - vz v); auto. unfold t, Rdiv. rewrite Rmult_assoc, Rinv_l by lra. lra. }
  unR. fold t. apply V3_eq; [ring|ring|]. unfold t. field. lra.
Qed.
Lemma tri_sub : forall a b c p q r x, in_triangle a b c p -> in_triangle a b c q -> in_triangle a b c r -> in_triangle p q r x -> in_triangle a b c x.
Proof.
  intros a b c p q r x [p1 [p2 [p3 [P1 [P2 [P3 [PS ->]]]]]]] [q1 [q2 [q3 [Q1 [Q2 [Q3 [QS ->]]]]]]] [r1 [r2 [r3 [R1 [R2 [R3 [RS ->]]]]]]] [u [v [w [U [V [W [SUM ->]]]]]]].
  exists (u * p1 + v * q1 + w * r1), (u * p2 + v * q2 + w * r2), (u * p3 + v * q3 + w * r3).
  assert (POS : forall k l m, 0 <= k -> 0 <= l -> 0 <= m -> 0 <= u * k + v * l + w * m) by (intros; repeat apply Rplus_le_le_0_compat; apply Rmult_le_pos; auto).
  split; [auto|]. split; [auto|]. split; [auto|]. split.
  - replace (u * p1 + v * q1 + w * r1 + (u * p2 + v * q2 + w * r2) + (u * p3 + v * q3 + w * r3)) with (u * (p1 + p2 + p3) + v * (q1 + q2 + q3) + w * (r1 + r2 + r3)) by ring. rewrite PS, QS, RS. lra.
  - cbn [vx vy vz]. apply V3_eq; ring.
Qed.
Lemma tri_below : forall a b c x k, in_triangle a b c x -> vz a <= k -> vz b <= k -> vz c <= k -> vz x <= k.
Proof.
  intros a b c x k [u [v [w [U [V [W [SUM ->]]]]]]] A B C. cbn [vz].
  assert (0 <= u * (k - vz a)) by (apply Rmult_le_pos; lra). assert (0 <= v * (k - vz b)) by (apply Rmult_le_pos; lra). assert (0 <= w * (k - vz c)) by (apply Rmult_le_pos; lra).
  replace k with ((u + v + w) * k) by (rewrite SUM; ring). lra.
Qed.
Lemma tri_above : forall a b c x k, in_triangle a b c x -> k <= vz a -> k <= vz b -> k <= vz c -> k <= vz x.
Proof.
  intros a b c x k [u [v [w [U [V [W [SUM ->]]]]]]] A B C. cbn [vz].
  assert (0 <= u * (vz a - k)) by (apply Rmult_le_pos; lra). assert (0 <= v * (vz b - k)) by (apply Rmult_le_pos; lra). assert (0 <= w * (vz c - k)) by (apply Rmult_le_pos; lra).
  replace k with ((u + v + w) * k) by (rewrite SUM; ring). lra.
Qed.
Lemma tri_corners : forall a b c : vec3 R, in_triangle a b c a /\ in_triangle a b c b /\ in_triangle a b c c.
Proof.
  intros. split; [|split]; [exists 1, 0, 0|exists 0, 1, 0|exists 0, 0, 1]; (split; [lra|]); (split; [lra|]); (split; [lra|]); (split; [lra|]); destruct a as [a1 a2 a3], b as [b1 b2 b3], c as [c1 c2 c3]; cbn [vx vy vz]; apply V3_eq; ring.
Qed.
Lemma clip_edge_in : forall a b c v w : vec3 R, in_triangle a b c v -> in_triangle a b c w -> vz v < near_clip -> near_clip <= vz w -> in_triangle a b c (clip_edge v w) /\ vz (clip_edge v w) = near_clip.
Proof.
  intros a b c v w V W LV LW. destruct (clip_edge_R v w LV LW) as [T E]. cbv zeta in T, E. split; [|reflexivity]. rewrite E. apply in_triangle_convex; auto. lra.
Qed.
Lemma div_pos : forall a b, 0 <= a -> 0 < b -> 0 <= a / b. Proof. intros. apply Rmult_le_pos; auto. left. apply Rinv_0_lt_compat. auto. Qed.
(** one vertex in view *)
Lemma clip_one : forall v0 v1 v2 x : vec3 R, vz v0 < near_clip -> near_clip <= vz v1 -> near_clip <= vz v2 ->
  (in_triangle v0 (clip_edge v0 v1) (clip_edge v0 v2) x <-> in_triangle v0 v1 v2 x /\ vz x <= near_clip).
Proof.
  intros v0 v1 v2 x L0 L1 L2. destruct (tri_corners v0 v1 v2) as [C0 [C1 C2]]. split.
  - intros I. destruct (clip_edge_in v0 v1 v2 v0 v1 C0 C1 L0 L1) as [I1 E1]. destruct (clip_edge_in v0 v1 v2 v0 v2 C0 C2 L0 L2) as [I2 E2].
    split; [eapply tri_sub; [exact C0|exact I1|exact I2|exact I]|]. eapply tri_below; [exact I|lra|lra|lra].
  - intros [[u [v [w [U [V [W [SUM ->]]]]]]] LE]. cbn [vz] in LE. destruct (clip_edge_R v0 v1 L0 L1) as [T1 ->]. destruct (clip_edge_R v0 v2 L0 L2) as [T2 ->]. cbv zeta in *.
    set (A := near_clip - vz v0) in *. assert (A0 : 0 < A) by (unfold A; lra). assert (D1 : 0 < vz v1 - vz v0) by lra. assert (D2 : 0 < vz v2 - vz v0) by lra.
    assert (K : v * (vz v1 - vz v0) + w * (vz v2 - vz v0) <= A) by (unfold A; replace u with (1 - v - w) in LE by lra; lra).
    exists (1 - v * (vz v1 - vz v0) / A - w * (vz v2 - vz v0) / A), (v * (vz v1 - vz v0) / A), (w * (vz v2 - vz v0) / A).
    split. { apply Rmult_le_reg_r with A; auto. replace ((1 - v * (vz v1 - vz v0) / A - w * (vz v2 - vz v0) / A) * A) with (A - (v * (vz v1 - vz v0) + w * (vz v2 - vz v0))) by (field; lra). lra. }
    split; [apply div_pos; auto; apply Rmult_le_pos; lra|]. split; [apply div_pos; auto; apply Rmult_le_pos; lra|]. split; [ring|].
    cbn [vx vy vz]. replace u with (1 - v - w) by lra. apply V3_eq; field; lra.
Qed.
(** two vertices in view: the part in front of the near plane is cut into two triangles *)
Lemma clip_two : forall v0 v1 v2 x : vec3 R, vz v0 < near_clip -> vz v1 < near_clip -> near_clip <= vz v2 ->
  (in_triangle v0 v1 (clip_edge v0 v2) x \/ in_triangle (clip_edge v0 v2) v1 (clip_edge v1 v2) x <-> in_triangle v0 v1 v2 x /\ vz x <= near_clip).
Proof.
  intros v0 v1 v2 x L0 L1 L2. destruct (tri_corners v0 v1 v2) as [C0 [C1 C2]]. split.
  - destruct (clip_edge_in v0 v1 v2 v0 v2 C0 C2 L0 L2) as [I1 E1]. destruct (clip_edge_in v0 v1 v2 v1 v2 C1 C2 L1 L2) as [I2 E2].
    intros [I|I]; (split; [eapply tri_sub; [| | |exact I]; auto|eapply tri_below; [exact I|lra|lra|lra]]).
  - intros [[u [v [w [U [V [W [SUM ->]]]]]]] LE]. cbn [vz] in LE. destruct (clip_edge_R v0 v2 L0 L2) as [T1 ->]. destruct (clip_edge_R v1 v2 L1 L2) as [T2 ->]. cbv zeta in *.
    set (A := near_clip - vz v0) in *. set (B := near_clip - vz v1) in *. set (C := vz v2 - near_clip).
    assert (A0 : 0 < A) by (unfold A; lra). assert (B0 : 0 < B) by (unfold B; lra). assert (C0' : 0 <= C) by (unfold C; lra).
    replace (vz v2 - vz v0) with (A + C) in * by (unfold A, C; ring). replace (vz v2 - vz v1) with (B + C) in * by (unfold B, C; ring).
    assert (K : w * C <= u * A + v * B). { unfold A, B, C. replace u with (1 - v - w) in * by lra. lra. }
    assert (Z0 : vz v2 = vz v0 + (A + C)) by (unfold A, C; ring). assert (Z1 : vz v1 = vz v0 + A - B) by (unfold A, B; ring).
    destruct (Rle_lt_dec (w * C) (u * A)) as [Q|Q].
    + left. exists (u - w * C / A), v, (w * (A + C) / A).
      split. { apply Rmult_le_reg_r with A; auto. replace ((u - w * C / A) * A) with (u * A - w * C) by (field; lra). lra. }
      split; auto. split; [apply div_pos; auto; apply Rmult_le_pos; lra|]. split; [replace u with (1 - v - w) by lra; field; lra|].
      cbn [vx vy vz]. rewrite Z0. replace u with (1 - v - w) by lra. apply V3_eq; field; lra.
    + assert (CP : 0 < C). { destruct C0' as [P|P]; auto. rewrite <- P in Q. assert (0 <= u * A) by (apply Rmult_le_pos; lra). lra. }
      right. exists (u * (A + C) / C), (v - (w * C - u * A) / B), ((w * C - u * A) * (B + C) / (B * C)).
      assert (BC : 0 < B * C) by (apply Rmult_lt_0_compat; auto).
      split; [apply div_pos; auto; apply Rmult_le_pos; lra|].
      split. { apply Rmult_le_reg_r with B; auto. replace ((v - (w * C - u * A) / B) * B) with (u * A + v * B - w * C) by (field; lra). lra. }
      split; [apply div_pos; auto; apply Rmult_le_pos; lra|]. split; [replace v with (1 - u - w) by lra; field; lra|].
      cbn [vx vy vz]. rewrite Z0, Z1. replace v with (1 - u - w) by lra. apply V3_eq; field; lra.
Qed.
Definition in_some (ts : list (vec3 R * vec3 R * vec3 R)) (x : vec3 R) : Prop := exists a b c, In (a, b, c) ts /\ in_triangle a b c x.
Lemma some_1 : forall a b c x, in_some [(a, b, c)] x <-> in_triangle a b c x.
Proof. intros. split; [intros [a' [b' [c' [[E|[]] I]]]]; injection E as <- <- <-; auto|intros; exists a, b, c; split; [left|]; auto]. Qed.
Lemma some_2 : forall a b c d e f x, in_some [(a, b, c); (d, e, f)] x <-> in_triangle a b c x \/ in_triangle d e f x.
Proof.
  intros. split; [intros [a' [b' [c' [[E|[E|[]]] I]]]]; injection E as <- <- <-; auto|]. intros [I|I]; [exists a, b, c|exists d, e, f]; (split; [|auto]); [left|right; left]; auto.
Qed.
Lemma rot_tri : forall a b c x : vec3 R, in_triangle a b c x <-> in_triangle b c a x.
Proof. intros. split; apply in_triangle_permut; [|apply Permutation_sym]; change [b; c; a] with ([b; c] ++ [a]); apply Permutation_cons_append. Qed.
Lemma clip_cover : forall p1 p2 p3 x, vz p1 < near_clip \/ vz p2 < near_clip \/ vz p3 < near_clip ->
  (in_some (clip_tri p1 p2 p3) x <-> in_triangle p1 p2 p3 x /\ vz x <= near_clip).
Proof.
  intros p1 p2 p3 x H. unfold clip_tri. destruct (nltb (vz p1) near_clip) eqn:Q1; destruct (nltb (vz p2) near_clip) eqn:Q2; destruct (nltb (vz p3) near_clip) eqn:Q3;
    cbn [nltb NumR] in *; rboolH; try lra.
  - rewrite some_1. split; [|tauto]. intros I. split; auto. eapply tri_below; [exact I|lra|lra|lra].
  - rewrite some_2. apply clip_two; auto.
  - rewrite some_2. rewrite clip_two by auto. rewrite <- (rot_tri p2 p3 p1), <- rot_tri. reflexivity.
  - rewrite some_1. apply clip_one; auto.
  - rewrite some_2, clip_two by auto. rewrite <- rot_tri. reflexivity.
  - rewrite some_1, clip_one by auto. rewrite <- rot_tri. reflexivity.
  - rewrite some_1, clip_one by auto. rewrite <- (rot_tri p2 p3 p1), <- rot_tri. reflexivity.
Qed.
Lemma clip_none : forall p1 p2 p3 : vec3 R, (near_clip <= vz p1 -> near_clip <= vz p2 -> near_clip <= vz p3 -> clip_tri p1 p2 p3 = []).
Proof.
  intros p1 p2 p3 A B C. unfold clip_tri. destruct (nltb (vz p1) near_clip) eqn:Q1; destruct (nltb (vz p2) near_clip) eqn:Q2; destruct (nltb (vz p3) near_clip) eqn:Q3; cbn [nltb NumR] in *; rboolH; try lra. reflexivity.
Qed.
(** orientation and corners *)
Lemma normal_one : forall v0 v1 v2 t s,
  s_normal v0 (V3 (vx v0 + t * (vx v1 - vx v0)) (vy v0 + t * (vy v1 - vy v0)) (vz v0 + t * (vz v1 - vz v0))) (V3 (vx v0 + s * (vx v2 - vx v0)) (vy v0 + s * (vy v2 - vy v0)) (vz v0 + s * (vz v2 - vz v0))) = s_mul (t * s) (s_normal v0 v1 v2).
Proof. intros. unfold s_normal, s_mul. cbn [vx vy vz]. apply V3_eq; ring. Qed.
Lemma normal_two : forall v0 v1 v2 t s,
  s_normal v0 v1 (V3 (vx v0 + t * (vx v2 - vx v0)) (vy v0 + t * (vy v2 - vy v0)) (vz v0 + t * (vz v2 - vz v0))) = s_mul t (s_normal v0 v1 v2) /\
  s_normal (V3 (vx v0 + t * (vx v2 - vx v0)) (vy v0 + t * (vy v2 - vy v0)) (vz v0 + t * (vz v2 - vz v0))) v1 (V3 (vx v1 + s * (vx v2 - vx v1)) (vy v1 + s * (vy v2 - vy v1)) (vz v1 + s * (vz v2 - vz v1))) = s_mul ((1 - t) * s) (s_normal v0 v1 v2).
Proof. intros. unfold s_normal, s_mul. cbn [vx vy vz]. split; apply V3_eq; ring. Qed.
Lemma normal_rot : forall a b c, s_normal b c a = s_normal a b c.
Proof. intros. unfold s_normal. apply V3_eq; ring. Qed.
Lemma one_pos : forall v0 v1 v2 a b c, vz v0 < near_clip -> near_clip <= vz v1 -> near_clip <= vz v2 -> In (a, b, c) [(v0, clip_edge v0 v1, clip_edge v0 v2)] -> exists k, 0 < k /\ s_normal a b c = s_mul k (s_normal v0 v1 v2).
Proof.
  intros v0 v1 v2 a b c L0 L1 L2 [E|[]]. injection E as <- <- <-. destruct (clip_edge_R v0 v1 L0 L1) as [T1 ->]. destruct (clip_edge_R v0 v2 L0 L2) as [T2 ->]. cbv zeta in *.
  eexists. split; [|apply normal_one]. apply Rmult_lt_0_compat; lra.
Qed.
Lemma two_pos : forall v0 v1 v2 a b c, vz v0 < near_clip -> vz v1 < near_clip -> near_clip < vz v2 -> In (a, b, c) [(v0, v1, clip_edge v0 v2); (clip_edge v0 v2, v1, clip_edge v1 v2)] -> exists k, 0 < k /\ s_normal a b c = s_mul k (s_normal v0 v1 v2).
Proof.
  intros v0 v1 v2 a b c L0 L1 L2 I. assert (L2' : near_clip <= vz v2) by lra. destruct (clip_edge_R v0 v2 L0 L2') as [T1 E1]. destruct (clip_edge_R v1 v2 L1 L2') as [T2 E2]. rewrite E1, E2 in I. cbv zeta in *. clear E1 E2. remember near_clip as N eqn:EN. clear EN.
  destruct I as [E|[E|[]]]; injection E as <- <- <-.
  - eexists. split; [|apply (proj1 (normal_two v0 v1 v2 _ 0))]. apply T1.
  - eexists. split; [|apply (proj2 (normal_two v0 v1 v2 _ _))]. apply Rmult_lt_0_compat; [|lra].
    replace (1 - (N - vz v0) / (vz v2 - vz v0)) with ((vz v2 - N) / (vz v2 - vz v0)) by (field; lra). apply Rmult_lt_0_compat; [lra|apply Rinv_0_lt_compat; lra].
Qed.
Lemma clip_orient : forall p1 p2 p3 a b c, vz p1 <> near_clip -> vz p2 <> near_clip -> vz p3 <> near_clip -> In (a, b, c) (clip_tri p1 p2 p3) -> exists k, 0 < k /\ s_normal a b c = s_mul k (s_normal p1 p2 p3).
Proof.
  intros p1 p2 p3 a b c N1 N2 N3. unfold clip_tri.
  destruct (nltb (vz p1) near_clip) eqn:Q1; destruct (nltb (vz p2) near_clip) eqn:Q2; destruct (nltb (vz p3) near_clip) eqn:Q3; cbn [nltb NumR] in *; rboolH; intros I.
  - destruct I as [E|[]]. injection E as <- <- <-. exists 1. split; [lra|]. unfold s_mul. rewrite !Rmult_1_l. destruct (s_normal p1 p2 p3) as [n1 n2 n3]. reflexivity.
  - eapply two_pos; eauto. lra.
  - apply two_pos in I as [k [K E]]; [|lra|lra|lra]. exists k. split; auto. rewrite E, (normal_rot p2 p3 p1), (normal_rot p1 p2 p3). reflexivity.
  - eapply one_pos; eauto.
  - apply two_pos in I as [k [K E]]; [|lra|lra|lra]. exists k. split; auto. rewrite E, (normal_rot p1 p2 p3). reflexivity.
  - apply one_pos in I as [k [K E]]; auto. exists k. split; auto. rewrite E, (normal_rot p1 p2 p3). reflexivity.
  - apply one_pos in I as [k [K E]]; auto. exists k. split; auto. rewrite E, (normal_rot p2 p3 p1), (normal_rot p1 p2 p3). reflexivity.
  - destruct I.
Qed.
Lemma clip_view : forall p1 p2 p3 a b c, In (a, b, c) (clip_tri p1 p2 p3) -> vz a <= near_clip /\ vz b <= near_clip /\ vz c <= near_clip.
Proof.
  intros p1 p2 p3 a b c I. assert (V : vz p1 < near_clip \/ vz p2 < near_clip \/ vz p3 < near_clip).
  { destruct (Rlt_dec (vz p1) near_clip); [auto|]. destruct (Rlt_dec (vz p2) near_clip); [auto|]. destruct (Rlt_dec (vz p3) near_clip); [auto|]. rewrite clip_none in I by lra. destruct I. }
  destruct (tri_corners a b c) as [A [B C]].
  assert (H : forall x, in_triangle a b c x -> vz x <= near_clip). { intros x T. apply (clip_cover p1 p2 p3 x V). exists a, b, c. auto. }
  auto.
Qed.

(** ** projection *)
Lemma wavg : forall u v w W1 W2 W3 N1 N2 N3 k d, 0 < W1 -> 0 < W2 -> 0 < W3 -> 0 < d -> d = u * W1 + v * W2 + w * W3 ->
  u * W1 / d * (N1 / W1 + k) + v * W2 / d * (N2 / W2 + k) + w * W3 / d * (N3 / W3 + k) = (u * N1 + v * N2 + w * N3) / d + k.
Proof. intros. transitivity ((u * N1 + v * N2 + w * N3 + k * (u * W1 + v * W2 + w * W3)) / d); [field; lra|rewrite <- H3; field; lra]. Qed.
Lemma wsum : forall u v w W1 W2 W3, 0 <= u -> 0 <= v -> 0 <= w -> u + v + w = 1 -> 0 < W1 -> 0 < W2 -> 0 < W3 -> 0 < u * W1 + v * W2 + w * W3.
Proof.
  intros u v w W1 W2 W3 U V W SUM A B C. assert (G : 0 < u \/ 0 < v \/ 0 < w) by lra.
  assert (0 <= u * W1) by (apply Rmult_le_pos; lra). assert (0 <= v * W2) by (apply Rmult_le_pos; lra). assert (0 <= w * W3) by (apply Rmult_le_pos; lra).
  destruct G as [G|[G|G]]; [assert (0 < u * W1) by (apply Rmult_lt_0_compat; lra)|assert (0 < v * W2) by (apply Rmult_lt_0_compat; lra)|assert (0 < w * W3) by (apply Rmult_lt_0_compat; lra)]; lra.
Qed.
(** projecting a point of the triangle gives a point of the projected triangle, of the right inverse depth *)
Lemma project_in : forall c p1 p2 p3 x, vz p1 < 0 -> vz p2 < 0 -> vz p3 < 0 -> in_triangle p1 p2 p3 x -> in_triangle (project_vert c p1) (project_vert c p2) (project_vert c p3) (project_vert c x).
Proof.
  intros c p1 p2 p3 x L1 L2 L3 [u [v [w [U [V [W [SUM ->]]]]]]].
  assert (D : 0 < u * - vz p1 + v * - vz p2 + w * - vz p3) by (apply wsum; lra).
  remember (u * - vz p1 + v * - vz p2 + w * - vz p3) as d eqn:ED.
  exists (u * - vz p1 / d), (v * - vz p2 / d), (w * - vz p3 / d).
  split; [apply div_pos; auto; apply Rmult_le_pos; lra|]. split; [apply div_pos; auto; apply Rmult_le_pos; lra|]. split; [apply div_pos; auto; apply Rmult_le_pos; lra|].
  split; [replace (u * - vz p1 / d + v * - vz p2 / d + w * - vz p3 / d) with ((u * - vz p1 + v * - vz p2 + w * - vz p3) / d) by (field; lra); rewrite <- ED; field; lra|].
  unfold project_vert, project3Dto2D. cbn [vx vy vz v2x v2y]. unR.
  replace (- (u * vz p1 + v * vz p2 + w * vz p3)) with d by (rewrite ED; ring).
  apply V3_eq.
  - rewrite (wavg u v w (- vz p1) (- vz p2) (- vz p3)) by (lra || auto). f_equal. f_equal. replace u with (1 - v - w) by lra. ring.
  - rewrite (wavg u v w (- vz p1) (- vz p2) (- vz p3)) by (lra || auto). f_equal. f_equal. replace u with (1 - v - w) by lra. ring.
  - pose proof (wavg u v w (- vz p1) (- vz p2) (- vz p3) 1 1 1 0 d) as E. rewrite !Rplus_0_r in E. rewrite E by (lra || auto). f_equal. lra.
Qed.
(** and each point of the projected triangle is the projection of a point of the triangle *)
Lemma project_onto : forall c p1 p2 p3 q, vz p1 < 0 -> vz p2 < 0 -> vz p3 < 0 -> in_triangle (project_vert c p1) (project_vert c p2) (project_vert c p3) q ->
  exists x, in_triangle p1 p2 p3 x /\ vz x < 0 /\ q = project_vert c x.
Proof.
  intros c p1 p2 p3 q L1 L2 L3 [k [l [m [K [L [M [SUM ->]]]]]]].
  assert (I1 : 0 < / - vz p1) by (apply Rinv_0_lt_compat; lra). assert (I2 : 0 < / - vz p2) by (apply Rinv_0_lt_compat; lra). assert (I3 : 0 < / - vz p3) by (apply Rinv_0_lt_compat; lra).
  assert (S0 : 0 < k * / - vz p1 + l * / - vz p2 + m * / - vz p3) by (apply wsum; lra).
  remember (k * / - vz p1 + l * / - vz p2 + m * / - vz p3) as s eqn:ES.
  set (u := k * / - vz p1 / s). set (v := l * / - vz p2 / s). set (w := m * / - vz p3 / s).
  assert (U : 0 <= u) by (apply div_pos; auto; apply Rmult_le_pos; lra). assert (V : 0 <= v) by (apply div_pos; auto; apply Rmult_le_pos; lra). assert (W : 0 <= w) by (apply div_pos; auto; apply Rmult_le_pos; lra).
  assert (SU : u + v + w = 1) by (unfold u, v, w; replace (k * / - vz p1 / s + l * / - vz p2 / s + m * / - vz p3 / s) with ((k * / - vz p1 + l * / - vz p2 + m * / - vz p3) / s) by (field; lra); rewrite <- ES; field; lra).
  assert (D : u * - vz p1 + v * - vz p2 + w * - vz p3 = 1 / s). { unfold u, v, w. replace (1 / s) with ((k + l + m) / s) by (rewrite SUM; reflexivity). field. lra. }
  assert (P : 0 < 1 / s) by (apply Rmult_lt_0_compat; [lra|apply Rinv_0_lt_compat; auto]).
  eexists. split; [exists u, v, w; split; [auto|]; split; [auto|]; split; [auto|]; split; [auto|reflexivity]|]. cbn [vz]. split; [lra|].
  unfold project_vert, project3Dto2D. cbn [vx vy vz v2x v2y]. unR. replace (- (u * vz p1 + v * vz p2 + w * vz p3)) with (1 / s) by (rewrite <- D; ring).
  assert (Q : forall n1 n2 n3 c0, k * (n1 / - vz p1 + c0) + l * (n2 / - vz p2 + c0) + m * (n3 / - vz p3 + c0) = (u * n1 + v * n2 + w * n3) / (1 / s) + c0).
  { intros. unfold u, v, w. replace m with (1 - k - l) by lra. field. lra. }
  apply V3_eq.
  - rewrite Q. f_equal. f_equal. replace u with (1 - v - w) by lra. ring.
  - rewrite Q. f_equal. f_equal. replace u with (1 - v - w) by lra. ring.
  - pose proof (Q 1 1 1 0) as E. rewrite !Rplus_0_r in E. rewrite E. f_equal. lra.
Qed.
(** the signed area of the projected triangle is negative exactly when its front side faces the centre of projection *)
Lemma front_facing : forall c p1 p2 p3, 0 < c_fx c -> 0 < c_fy c -> vz p1 < 0 -> vz p2 < 0 -> vz p3 < 0 ->
  (front2d (project_vert c p1) (project_vert c p2) (project_vert c p3) = true <-> s_facing (c_fx c) (c_fy c) (c_tx c) (c_ty c) p1 p2 p3).
Proof.
  intros c p1 p2 p3 FX FY L1 L2 L3. unfold front2d, s_facing. unF. rewrite Rltb_true. unfold project_vert, project3Dto2D. cbn [vx vy vz v2x v2y]. unR.
  set (e := ((c_fx c * vx p2 + c_tx c) / - vz p2 + c_cx c - ((c_fx c * vx p1 + c_tx c) / - vz p1 + c_cx c)) * ((c_fy c * - vy p3 + c_ty c) / - vz p3 + c_cy c - ((c_fy c * - vy p1 + c_ty c) / - vz p1 + c_cy c)) -
     ((c_fx c * vx p3 + c_tx c) / - vz p3 + c_cx c - ((c_fx c * vx p1 + c_tx c) / - vz p1 + c_cx c)) * ((c_fy c * - vy p2 + c_ty c) / - vz p2 + c_cy c - ((c_fy c * - vy p1 + c_ty c) / - vz p1 + c_cy c))).
  set (g := s_dot _ _).
  assert (E : e * (- vz p1 * - vz p2 * - vz p3) = - (c_fx c * c_fy c) * g).
  { unfold e, g, s_dot, s_normal, s_diff. cbn [vx vy vz]. field. lra. }
  assert (WP : 0 < - vz p1 * - vz p2 * - vz p3) by (repeat apply Rmult_lt_0_compat; lra).
  assert (FP : 0 < c_fx c * c_fy c) by (apply Rmult_lt_0_compat; auto).
  split; intros H.
  - destruct (Rlt_le_dec 0 g) as [G|G]; [exact G|]. assert (0 <= (c_fx c * c_fy c) * - g) by (apply Rmult_le_pos; lra).
    assert (0 < - e * (- vz p1 * - vz p2 * - vz p3)) by (apply Rmult_lt_0_compat; lra). lra.
  - destruct (Rlt_le_dec e 0) as [G|G]; [exact G|]. assert (0 <= e * (- vz p1 * - vz p2 * - vz p3)) by (apply Rmult_le_pos; lra).
    assert (0 < (c_fx c * c_fy c) * g) by (apply Rmult_lt_0_compat; lra). lra.
Qed.
(** the front of a drawn triangle is the front of the triangle *)
Lemma one_nn : forall v0 v1 v2 a b c, vz v0 < near_clip -> near_clip <= vz v1 -> near_clip <= vz v2 -> In (a, b, c) [(v0, clip_edge v0 v1, clip_edge v0 v2)] -> exists k, 0 <= k /\ s_normal a b c = s_mul k (s_normal v0 v1 v2).
Proof. intros. destruct (one_pos v0 v1 v2 a b c) as [k [K E]]; auto. exists k. split; [lra|auto]. Qed.
Lemma two_nn : forall v0 v1 v2 a b c, vz v0 < near_clip -> vz v1 < near_clip -> near_clip <= vz v2 -> In (a, b, c) [(v0, v1, clip_edge v0 v2); (clip_edge v0 v2, v1, clip_edge v1 v2)] -> exists k, 0 <= k /\ s_normal a b c = s_mul k (s_normal v0 v1 v2).
Proof.
  intros v0 v1 v2 a b c L0 L1 L2 I. destruct (clip_edge_R v0 v2 L0 L2) as [T1 E1]. destruct (clip_edge_R v1 v2 L1 L2) as [T2 E2]. rewrite E1, E2 in I. cbv zeta in *. clear E1 E2. remember near_clip as N eqn:EN. clear EN.
  destruct I as [E|[E|[]]]; injection E as <- <- <-.
  - eexists. split; [|apply (proj1 (normal_two v0 v1 v2 _ 0))]. lra.
  - eexists. split; [|apply (proj2 (normal_two v0 v1 v2 _ _))]. apply Rmult_le_pos; lra.
Qed.
Lemma clip_nn : forall p1 p2 p3 a b c, In (a, b, c) (clip_tri p1 p2 p3) -> exists k, 0 <= k /\ s_normal a b c = s_mul k (s_normal p1 p2 p3).
Proof.
  intros p1 p2 p3 a b c. unfold clip_tri.
  destruct (nltb (vz p1) near_clip) eqn:Q1; destruct (nltb (vz p2) near_clip) eqn:Q2; destruct (nltb (vz p3) near_clip) eqn:Q3; cbn [nltb NumR] in *; rboolH; intros I.
  - destruct I as [E|[]]. injection E as <- <- <-. exists 1. split; [lra|]. unfold s_mul. rewrite !Rmult_1_l. destruct (s_normal p1 p2 p3) as [n1 n2 n3]. reflexivity.
  - eapply two_nn; eauto.
  - apply two_nn in I as [k [K E]]; [|lra|lra|lra]. exists k. split; auto. rewrite E, (normal_rot p2 p3 p1), (normal_rot p1 p2 p3). reflexivity.
  - eapply one_nn; eauto.
  - apply two_nn in I as [k [K E]]; [|lra|lra|lra]. exists k. split; auto. rewrite E, (normal_rot p1 p2 p3). reflexivity.
  - apply one_nn in I as [k [K E]]; auto. exists k. split; auto. rewrite E, (normal_rot p1 p2 p3). reflexivity.
  - apply one_nn in I as [k [K E]]; auto. exists k. split; auto. rewrite E, (normal_rot p2 p3 p1), (normal_rot p1 p2 p3). reflexivity.
  - destruct I.
Qed.
Lemma plane_dot : forall p1 p2 p3 a o, in_triangle p1 p2 p3 a -> s_dot (s_normal p1 p2 p3) (s_diff o a) = s_dot (s_normal p1 p2 p3) (s_diff o p1).
Proof.
  intros p1 p2 p3 a o [u [v [w [_ [_ [_ [SUM ->]]]]]]]. unfold s_dot, s_normal, s_diff. cbn [vx vy vz]. replace u with (1 - v - w) by lra. ring.
Qed.
Lemma clip_facing : forall p1 p2 p3 a b c fx fy tx ty, In (a, b, c) (clip_tri p1 p2 p3) -> s_facing fx fy tx ty a b c -> s_facing fx fy tx ty p1 p2 p3.
Proof.
  intros p1 p2 p3 a b c fx fy tx ty I F. unfold s_facing in *. destruct (clip_nn _ _ _ _ _ _ I) as [k [K E]].
  assert (IA : in_triangle p1 p2 p3 a).
  { assert (V : vz p1 < near_clip \/ vz p2 < near_clip \/ vz p3 < near_clip).
    { destruct (Rlt_dec (vz p1) near_clip); [auto|]. destruct (Rlt_dec (vz p2) near_clip); [auto|]. destruct (Rlt_dec (vz p3) near_clip); [auto|]. rewrite clip_none in I by lra. destruct I. }
    apply (clip_cover p1 p2 p3 a V). exists a, b, c. split; auto. apply tri_corners. }
  rewrite E in F. set (o := V3 (- tx / fx) (ty / fy) 0) in *.
  replace (s_dot (s_mul k (s_normal p1 p2 p3)) (s_diff o a)) with (k * s_dot (s_normal p1 p2 p3) (s_diff o a)) in F by (unfold s_dot, s_mul; cbn [vx vy vz]; ring).
  rewrite (plane_dot _ _ _ _ _ IA) in F. destruct (Rlt_le_dec 0 (s_dot (s_normal p1 p2 p3) (s_diff o p1))) as [G|G]; [exact G|].
  assert (0 <= k * - s_dot (s_normal p1 p2 p3) (s_diff o p1)) by (apply Rmult_le_pos; lra). lra.
Qed.
Lemma clip_in : forall p1 p2 p3 a b c x, In (a, b, c) (clip_tri p1 p2 p3) -> in_triangle a b c x -> in_triangle p1 p2 p3 x /\ vz x <= near_clip.
Proof.
  intros p1 p2 p3 a b c x I T. assert (V : vz p1 < near_clip \/ vz p2 < near_clip \/ vz p3 < near_clip).
  { destruct (Rlt_dec (vz p1) near_clip); [auto|]. destruct (Rlt_dec (vz p2) near_clip); [auto|]. destruct (Rlt_dec (vz p3) near_clip); [auto|]. rewrite clip_none in I by lra. destruct I. }
  apply (clip_cover p1 p2 p3 x V). exists a, b, c. auto.
Qed.
