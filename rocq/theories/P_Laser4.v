(** Lemmas about the laser range finder: slicing triangles, rendering meshes *)
From Coq Require Import ZArith NArith List Bool Lia Reals Lra.
From Flocq Require Import Core.Raux.
From Verif Require Import Num NumOrd MathTypes Outcome Mesh Spec P_Tac P_Math P_Trig P_Mesh P_MeshGeo P_BoxMesh Laser SpecLaser P_Laser P_Laser2 P_Laser3.
Import ListNotations.
Local Open Scope R_scope.

Lemma moved_z : forall pose v, vert_z pose v = vz (s_moved pose v).
Proof. intros [[a b c d e f g h i] [x y z]] [u v w]. unfold vert_z, s_moved, m3row, vdot. cbn. unR. reflexivity. Qed.
Lemma moved_xy : forall pose v, vert_xy pose v = V2 (vx (s_moved pose v)) (vy (s_moved pose v)).
Proof. intros [[a b c d e f g h i] [x y z]] [u v w]. unfold vert_xy, s_moved, m3row, vdot. cbn. unR. reflexivity. Qed.
Lemma moved_apply : forall pose v, s_moved pose v = tapply pose v.
Proof. intros [[a b c d e f g h i] [x y z]] [u v w]. reflexivity. Qed.

Lemma slice_rot : forall a b c q1 q2, s_slice a b c q1 q2 -> s_slice b c a q1 q2.
Proof.
  intros a b c q1 q2 [A [k [K [B C]]]]. split.
  - intros x. rewrite <- A. split; intros [v [I V]]; exists v; (split; [|exact V]).
    + apply in_triangle_perm in I. destruct I as [I _]. apply in_triangle_perm in I. apply I.
    + apply in_triangle_perm in I. apply I.
  - exists k. split; auto. rewrite B, C. unfold s_normal, s_diff. cbn [vx vy vz]. split; ring.
Qed.
Definition xy (v : vec3 R) : vec2 R := V2 (vx v) (vy v).
Lemma side_ratio : forall z w, (z < 0 /\ 0 <= w) \/ (0 <= z /\ w < 0) -> 0 <= z / (z - w) <= 1.
Proof.
  intros z w [[A B]|[A B]].
  - replace (z / (z - w)) with (- z / (w - z)) by (field; lra). split; [apply Rmult_le_pos; [lra|left; apply Rinv_0_lt_compat; lra]|].
    apply Rmult_le_reg_r with (w - z); [lra|]. unfold Rdiv. rewrite Rmult_assoc, Rinv_l; lra.
  - split; [apply Rmult_le_pos; [lra|left; apply Rinv_0_lt_compat; lra]|].
    apply Rmult_le_reg_r with (z - w); [lra|]. unfold Rdiv. rewrite Rmult_assoc, Rinv_l; lra.
Qed.
(* the corner a is alone on its side of the plane *)
Lemma slice_apex : forall a b c, (vz a < 0 /\ 0 <= vz b /\ 0 <= vz c) \/ (0 <= vz a /\ vz b < 0 /\ vz c < 0) ->
  let qb := cut (xy a) (xy b) (Rabs (vz a)) (Rabs (vz b)) in let qc := cut (xy a) (xy c) (Rabs (vz a)) (Rabs (vz c)) in
  (vz a < 0 -> s_slice a b c qb qc) /\ (0 <= vz a -> s_slice a b c qc qb).
Proof.
  intros [ax ay az] [bx by_ bz] [cx cy cz] H qb qc. change (vz (V3 ax ay az)) with az in *. change (vz (V3 bx by_ bz)) with bz in *. change (vz (V3 cx cy cz)) with cz in *.
  set (s := az / (az - bz)). set (t := az / (az - cz)).
  assert (NB : az - bz <> 0) by lra. assert (NC : az - cz <> 0) by lra.
  assert (S : s * (az - bz) = az) by (unfold s; field; auto). assert (T : t * (az - cz) = az) by (unfold t; field; auto).
  assert (QB : qb = V2 (ax + s * (bx - ax)) (ay + s * (by_ - ay))).
  { unfold qb, cut, xy, v2divs, v2add, v2scale. cbn [vx vy vz v2x v2y]. unR. destruct H as [[H1 [H2 H3]]|[H1 [H2 H3]]].
    - rewrite (Rabs_left az), (Rabs_right bz) by lra. unfold s. f_equal; field; lra.
    - rewrite (Rabs_right az), (Rabs_left bz) by lra. unfold s. f_equal; field; lra. }
  assert (QC : qc = V2 (ax + t * (cx - ax)) (ay + t * (cy - ay))).
  { unfold qc, cut, xy, v2divs, v2add, v2scale. cbn [vx vy vz v2x v2y]. unR. destruct H as [[H1 [H2 H3]]|[H1 [H2 H3]]].
    - rewrite (Rabs_left az), (Rabs_right cz) by lra. unfold t. f_equal; field; lra.
    - rewrite (Rabs_right az), (Rabs_left cz) by lra. unfold t. f_equal; field; lra. }
  assert (RS : 0 <= s <= 1 /\ 0 <= t <= 1).
  { split; apply side_ratio; lra. }
  destruct RS as [RS RT].
  (* the points shared with the plane *)
  assert (SEG : forall x : vec2 R, (exists v, in_triangle (V3 ax ay az) (V3 bx by_ bz) (V3 cx cy cz) v /\ vz v = 0 /\ V2 (vx v) (vy v) = x) <-> exists m, 0 <= m <= 1 /\ x = s_along qb qc m).
  { intros x. rewrite QB, QC. unfold s_along. cbn [v2x v2y]. split.
    - intros [v [[u [w [r [U [W [RR [SUM ->]]]]]]] [Z <-]]]. cbn [vx vy vz] in *.
      assert (EU : u = 1 - w - r) by lra. assert (ZZ : w * (az - bz) + r * (az - cz) = az). { rewrite EU in Z. lra. }
      destruct (Req_dec az 0) as [A0|A0].
      + assert (w = 0 /\ r = 0).
        { destruct H as [H|[_ [H1 H2]]]; [lra|]. assert (0 <= w * (az - bz)) by (apply Rmult_le_pos; lra). assert (0 <= r * (az - cz)) by (apply Rmult_le_pos; lra).
          split; [apply Rmult_eq_reg_r with (az - bz)|apply Rmult_eq_reg_r with (az - cz)]; lra. }
        destruct H0 as [-> ->]. exists 0. split; [lra|]. assert (s = 0) by (apply Rmult_eq_reg_r with (az - bz); lra). assert (t = 0) by (apply Rmult_eq_reg_r with (az - cz); lra).
        rewrite EU, H0, H1. f_equal; ring.
      + assert (TN : t <> 0) by (intros E; rewrite E in T; lra). assert (SN : s <> 0) by (intros E; rewrite E in S; lra).
        exists (r / t). assert (R1 : r / t * t = r) by (field; auto).
        assert (R2 : w = (1 - r / t) * s).
        { apply Rmult_eq_reg_r with (az - bz); auto. rewrite Rmult_assoc, S. 
          assert (r * (az - cz) = r / t * az) by (rewrite <- R1 at 1; rewrite Rmult_assoc, T; reflexivity). lra. }
        split.
        * split; [apply Rmult_le_pos; [auto|left; apply Rinv_0_lt_compat; lra]|]. 
          assert (0 <= 1 - r / t); [|lra]. apply Rmult_le_reg_r with s; lra.
        * set (m := r / t) in *. rewrite EU. clear EU. f_equal; rewrite R2, <- R1; ring.
    - intros [m [Hm ->]]. exists (V3 (ax + (1 - m) * s * (bx - ax) + m * t * (cx - ax)) (ay + (1 - m) * s * (by_ - ay) + m * t * (cy - ay)) 0). split.
      + exists (1 - (1 - m) * s - m * t), ((1 - m) * s), (m * t). cbn [vx vy vz].
        assert (0 <= (1 - m) * s <= 1 - m). { split; [apply Rmult_le_pos; lra|]. rewrite <- (Rmult_1_r (1 - m)) at 2. apply Rmult_le_compat_l; lra. }
        assert (0 <= m * t <= m). { split; [apply Rmult_le_pos; lra|]. rewrite <- (Rmult_1_r m) at 2. apply Rmult_le_compat_l; lra. }
        repeat split; try lra. apply V3_eq; [ring|ring|].
        transitivity (az - (1 - m) * (s * (az - bz)) - m * (t * (az - cz))); [rewrite S, T; ring|ring].
      + cbn [vx vy vz]. split; auto. f_equal; ring. }
  assert (SG : 0 < (bz - az) * (cz - az)).
  { destruct H as [[H1 [H2 H3]]|[H1 [H2 H3]]]; [apply Rmult_lt_0_compat; lra|]. replace ((bz - az) * (cz - az)) with ((az - bz) * (az - cz)) by ring. apply Rmult_lt_0_compat; lra. }
  assert (OR : v2x qc - v2x qb = - az / ((bz - az) * (cz - az)) * ((bz - az) * (cx - ax) - (bx - ax) * (cz - az)) /\
               v2y qc - v2y qb = - (- az / ((bz - az) * (cz - az))) * ((by_ - ay) * (cz - az) - (bz - az) * (cy - ay))).
  { rewrite QB, QC. cbn [v2x v2y]. unfold s, t. split; field; repeat split; lra. }
  destruct OR as [OX OY]. split; intros Z.
  - split; auto. exists (- az / ((bz - az) * (cz - az))). split; [apply Rmult_le_pos; [lra|left; apply Rinv_0_lt_compat; auto]|].
    unfold s_normal, s_diff. cbn [vx vy vz]. rewrite OX, OY. split; ring.
  - split.
    + intros x. rewrite SEG. split; intros [m [Hm ->]]; exists (1 - m); (split; [lra|]); unfold s_along; f_equal; ring.
    + exists (az / ((bz - az) * (cz - az))). split; [apply Rmult_le_pos; [lra|left; apply Rinv_0_lt_compat; auto]|].
      unfold s_normal, s_diff. cbn [vx vy vz].
      replace (v2x qb - v2x qc) with (- (v2x qc - v2x qb)) by ring. replace (v2y qb - v2y qc) with (- (v2y qc - v2y qb)) by ring. rewrite OX, OY.
      split; unfold Rdiv; ring.
Qed.
Lemma slice_some : forall a b c, s_straddles a b c -> exists q1 q2,
  slice (vz a) (vz b) (vz c) (xy a) (xy b) (xy c) = Some (q1, q2) /\ s_slice a b c q1 q2.
Proof.
  intros a b c [H1 H2]. unfold slice. unR.
  destruct (Rltb (vz a) 0) eqn:A, (Rltb (vz b) 0) eqn:B, (Rltb (vz c) 0) eqn:C; cbn [Bool.eqb negb orb];
  (apply Rltb_true in A || apply Rltb_false in A); (apply Rltb_true in B || apply Rltb_false in B); (apply Rltb_true in C || apply Rltb_false in C); try lra; do 2 eexists; (split; [reflexivity|]).
  - apply slice_rot. pose proof (slice_apex c a b ltac:(right; lra)) as [_ G]. cbv zeta in G. apply G. lra.
  - apply slice_rot, slice_rot. pose proof (slice_apex b c a ltac:(right; lra)) as [_ G]. cbv zeta in G. apply G. lra.
  - pose proof (slice_apex a b c ltac:(left; lra)) as [G _]. cbv zeta in G. apply G. lra.
  - pose proof (slice_apex a b c ltac:(right; lra)) as [_ G]. cbv zeta in G. apply G. lra.
  - apply slice_rot, slice_rot. pose proof (slice_apex b c a ltac:(left; lra)) as [G _]. cbv zeta in G. apply G. lra.
  - apply slice_rot. pose proof (slice_apex c a b ltac:(left; lra)) as [G _]. cbv zeta in G. apply G. lra.
Qed.
Lemma slice_none : forall a b c, ~ s_straddles a b c -> slice (vz a) (vz b) (vz c) (xy a) (xy b) (xy c) = None.
Proof.
  intros a b c H. unfold slice. unR. unfold s_straddles in H.
  destruct (Rltb (vz a) 0) eqn:A, (Rltb (vz b) 0) eqn:B, (Rltb (vz c) 0) eqn:C; cbn [Bool.eqb negb orb]; auto; exfalso; apply H;
  (apply Rltb_true in A || apply Rltb_false in A); (apply Rltb_true in B || apply Rltb_false in B); (apply Rltb_true in C || apply Rltb_false in C); clear - A B C; split; tauto.
Qed.
Lemma slice_unique : forall a b c p q p' q', s_slice a b c p q -> s_slice a b c p' q' -> p = p' /\ q = q'.
Proof.
  intros a b c [x1 y1] [x2 y2] [u1 v1] [u2 v2] [A [k [K [KX KY]]]] [B [h [H [HX HY]]]].
  assert (E : forall x, (exists t, 0 <= t <= 1 /\ x = s_along (V2 x1 y1) (V2 x2 y2) t) <-> (exists t, 0 <= t <= 1 /\ x = s_along (V2 u1 v1) (V2 u2 v2) t)).
  { intros x. rewrite <- A, <- B. tauto. }
  clear A B. unfold s_along in E. cbn [v2x v2y] in *.
  destruct (proj1 (E (V2 x1 y1))) as [s1 [S1 E1]]. { exists 0. split; [lra|]. f_equal; ring. }
  destruct (proj1 (E (V2 x2 y2))) as [s2 [S2 E2]]. { exists 1. split; [lra|]. f_equal; ring. }
  destruct (proj2 (E (V2 u1 v1))) as [t1 [T1 E3]]. { exists 0. split; [lra|]. f_equal; ring. }
  destruct (proj2 (E (V2 u2 v2))) as [t2 [T2 E4]]. { exists 1. split; [lra|]. f_equal; ring. }
  clear E. injection E1 as E1x E1y. injection E2 as E2x E2y. injection E3 as E3x E3y. injection E4 as E4x E4y.
  set (dx := x2 - x1) in *. set (dy := y2 - y1) in *. set (ex := u2 - u1) in *. set (ey := v2 - v1) in *.
  set (ny := vy (s_normal a b c)) in *. set (nx := vx (s_normal a b c)) in *.
  assert (D1 : dx = (s2 - s1) * ex) by (unfold dx; rewrite E1x, E2x; ring). assert (D2 : dy = (s2 - s1) * ey) by (unfold dy; rewrite E1y, E2y; ring).
  assert (F1 : ex = (t2 - t1) * dx) by (unfold ex; rewrite E3x, E4x; ring). assert (F2 : ey = (t2 - t1) * dy) by (unfold ey; rewrite E3y, E4y; ring).
  assert (Z : (dx = 0 /\ dy = 0) \/ (dx <> 0 \/ dy <> 0)). { destruct (Req_dec dx 0), (Req_dec dy 0); tauto. }
  destruct Z as [[Z1 Z2]|Z].
  - rewrite Z1 in *. rewrite Z2 in *. assert (ex = 0) by lra. assert (ey = 0) by lra. unfold dx, dy, ex, ey in *. split; f_equal; lra.
  - assert (SS : (s2 - s1) * (t2 - t1) = 1).
    { destruct Z as [Z|Z].
      - apply Rmult_eq_reg_r with dx; auto. rewrite Rmult_assoc, <- F1, <- D1. ring.
      - apply Rmult_eq_reg_r with dy; auto. rewrite Rmult_assoc, <- F2, <- D2. ring. }
    assert (PT : 0 <= t2 - t1).
    { assert (KP : 0 < k). { destruct (Rle_lt_or_eq_dec 0 k K); auto. subst k. destruct Z as [Z|Z]; exfalso; apply Z; lra. }
      assert (Q : h = (t2 - t1) * k).
      { destruct Z as [Z|Z].
        - assert (ny <> 0) by (intros N0; rewrite N0 in KX; lra). apply Rmult_eq_reg_r with ny; auto. rewrite Rmult_assoc, <- KX, <- HX. auto.
        - assert (nx <> 0) by (intros N0; rewrite N0 in KY; lra). apply Rmult_eq_reg_r with (- nx); [|lra]. 
          replace (h * - nx) with (- h * nx) by ring. replace ((t2 - t1) * k * - nx) with ((t2 - t1) * (- k * nx)) by ring. rewrite <- KY, <- HY. auto. }
      apply Rmult_le_reg_r with k; auto. lra. }
    assert (PS : 0 < s2 - s1). { destruct (Rle_or_lt (s2 - s1) 0); auto. assert (0 <= - (s2 - s1) * (t2 - t1)) by (apply Rmult_le_pos; lra). lra. }
    assert (T : t2 - t1 = 1).
    { assert (t2 - t1 <= 1) by lra. assert (s2 - s1 <= 1) by lra. destruct (Req_dec (t2 - t1) 1); auto.
      assert ((s2 - s1) * (t2 - t1) < 1); [|lra]. apply Rle_lt_trans with (1 * (t2 - t1)); [apply Rmult_le_compat_r; lra|lra]. }
    assert (t1 = 0) by lra. assert (t2 = 1) by lra. subst t1 t2. unfold dx, dy in *. split; f_equal; lra.
Qed.
(** a lit slice is a hit of the front of the triangle *)
Lemma lit_hit : forall a b c p q ang d, s_slice a b c p q -> s_lit ang p q d <-> (s_front_hit a b c ang d /\ V2 (d * cos ang) (d * sin ang) <> p).
Proof.
  intros a b c p q ang d [A [k [K [KX KY]]]]. 
  (* a point of the segment and the normal *)
  assert (NP : forall v, in_triangle a b c v -> vz v = 0 -> s_turn p q = - k * s_dot (s_normal a b c) v).
  { intros v I Z. destruct (proj1 (A (V2 (vx v) (vy v)))) as [t [_ E]]; [exists v; auto|]. unfold s_along in E. injection E as E1 E2.
    unfold s_turn, s_dot. rewrite Z, E1, E2. replace (v2x p * v2y q - v2y p * v2x q) with (v2x p * (v2y q - v2y p) - v2y p * (v2x q - v2x p)) by ring.
    rewrite KX, KY. ring. }
  unfold s_front_hit. cbv zeta. split.
  - intros [T [D [t [Ht E]]]]. destruct (proj2 (A (V2 (d * cos ang) (d * sin ang)))) as [v [I [Z V]]]; [exists t; split; [lra|auto]|].
    assert (VE : v = V3 (d * cos ang) (d * sin ang) 0). { destruct v as [x y z]. cbn [vx vy vz] in *. injection V as -> ->. rewrite Z. reflexivity. }
    pose proof (NP v I Z) as N. rewrite VE in *. repeat split; auto.
    + rewrite N in T. assert (KP : 0 < k). { destruct (Rle_lt_or_eq_dec 0 k K); auto. subst k. lra. }
      set (w := s_dot (s_normal a b c) (V3 (d * cos ang) (d * sin ang) 0)) in *. destruct (Rlt_or_le w 0); auto. assert (0 <= k * w) by (apply Rmult_le_pos; lra). lra.
    + intros EP. rewrite E in EP. unfold s_along in EP. destruct p as [x y]. cbn [v2x v2y] in *. injection EP as E1 E2.
      assert (v2x q - x = 0) by (apply Rmult_eq_reg_l with t; lra). assert (v2y q - y = 0) by (apply Rmult_eq_reg_l with t; lra).
      unfold s_turn in T. cbn [v2x v2y] in T. replace (v2x q) with x in T by lra. replace (v2y q) with y in T by lra. lra.
  - intros [[D [I NN]] NE]. destruct (proj1 (A (V2 (d * cos ang) (d * sin ang)))) as [t [Ht E]]; [eexists; split; [exact I|]; auto|].
    assert (TP : 0 < t). { destruct (Rle_lt_or_eq_dec 0 t); [lra|auto|]. subst t. exfalso. apply NE. rewrite E. unfold s_along. destruct p as [px py]. cbn [v2x v2y]. f_equal; ring. }
    split; [|split; [auto|exists t; split; [lra|auto]]].
    rewrite (NP _ I eq_refl). assert (KP : 0 < k).
    { destruct (Rle_lt_or_eq_dec 0 k K) as [|KZ]; auto. exfalso. apply NE. rewrite E. rewrite <- KZ in *. unfold s_along. rewrite KX, KY. destruct p as [px py]. cbn [v2x v2y]. f_equal; ring. }
    replace (- k * s_dot (s_normal a b c) (V3 (d * cos ang) (d * sin ang) 0)) with (k * - s_dot (s_normal a b c) (V3 (d * cos ang) (d * sin ang) 0)) by ring.
    apply Rmult_lt_0_compat; lra.
Qed.
