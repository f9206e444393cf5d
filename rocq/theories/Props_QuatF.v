(** * C104: from rotation matrices to quaternions and back, on doubles *)
From Coq Require Import ZArith Bool Lia Reals Lra.
From Flocq Require Import Core BinarySingleNaN.
From Verif Require Import Num Outcome MathTypes Mesh Depth Ros Spec SpecRound SpecQuatF P_Tac P_Math P_Round P_Round3 P_QuatF.
From Verif Require P_Rot.
Local Open Scope R_scope.

Lemma set_fits : forall (m : mat3 F64) p e, s_finm m -> q_norm2 p = 1 -> s_closem e (rm m) (s_qmat p) -> fits e m (qx p) (qy p) (qz p) (qw p).
Proof.
  intros m [x y z w] e [[F1 [F2 F3]] [[F4 [F5 F6]] [F7 [F8 F9]]]] U C. rewrite qmat_eq in C by (rewrite U; lra). unfold q_norm2 in U. cbn [qx qy qz qw] in *.
  assert (U' : x * x + y * y + z * z + w * w = 1) by lra.
  unfold m3setRotation, qlength2 in C. cbn [qx qy qz qw nadd nsub nmul ndiv NumR] in C. rewrite U' in C. unfold s_closem, s_close, rm in C. cbn [vx vy vz mxx mxy mxz myx myy myz mzx mzy mzz] in C.
  change (n1 : R) with 1 in C. change (n2 : R) with 2 in C. destruct C as [[C1 [C2 C3]] [[C4 [C5 C6]] [C7 [C8 C9]]]].
  constructor; auto; (split; [assumption|]).
  - eapply Rle_trans; [|exact C1]. right. f_equal. field.
  - eapply Rle_trans; [|exact C2]. right. f_equal. field.
  - eapply Rle_trans; [|exact C3]. right. f_equal. field.
  - eapply Rle_trans; [|exact C4]. right. f_equal. field.
  - eapply Rle_trans; [|exact C5]. right. f_equal. field.
  - eapply Rle_trans; [|exact C6]. right. f_equal. field.
  - eapply Rle_trans; [|exact C7]. right. f_equal. field.
  - eapply Rle_trans; [|exact C8]. right. f_equal. field.
  - eapply Rle_trans; [|exact C9]. right. f_equal. field.
Qed.
Lemma nearq_closeq : forall e q x y z w, nearq e q x y z w -> s_finq q /\ s_closeq e (rq q) (Q x y z w).
Proof. intros e q x y z w [[F1 H1] [[F2 H2] [[F3 H3] [F4 H4]]]]. split; repeat split; auto. Qed.
Lemma qneg_qmat : forall p, q_norm2 p = 1 -> s_qmat (q_neg p) = s_qmat p.
Proof.
  intros [x y z w] U. rewrite !qmat_eq; [|rewrite U; lra|unfold q_norm2, q_neg in *; cbn [qx qy qz qw] in *; lra].
  unfold q_norm2 in U. cbn [qx qy qz qw] in U. unfold m3setRotation, qlength2, q_neg. cbn [qx qy qz qw nadd nsub nmul ndiv NumR].
  rewrite !Rmult_opp_opp. replace (x * x + y * y + z * z + w * w) with 1 by lra. f_equal; field.
Qed.

(** a matrix within e of a rotation r gives a quaternion within 6 e + 36 u of one of the two unit quaternions of r, whatever branch
    the computed comparisons choose and whatever was in the output before *)
Theorem C104_quaternion : forall (m : mat3 F64) (q0 : quat F64) (p : quat R) e, s_finm m -> q_norm2 p = 1 -> s_closem e (rm m) (s_qmat p) -> e <= / 1000 ->
  s_finq (m3getRotation m q0) /\
  (s_closeq (6 * e + 36 * uro) (rq (m3getRotation m q0)) p \/ s_closeq (6 * e + 36 * uro) (rq (m3getRotation m q0)) (q_neg p)).
Proof.
  intros m q0 p e F U C S. destruct (getRotation_near e m q0 _ _ _ _ (set_fits m p e F U C) S) as [N|N]; apply nearq_closeq in N; destruct N as [N1 N2]; (split; [exact N1|]).
  - left. destruct p. exact N2.
  - right. destruct p. exact N2.
Qed.
(** every rotation has such a quaternion *)
Theorem C104_rotation : forall (m : mat3 F64) (q0 : quat F64) (r : mat3 R) e, s_finm m -> rotation r -> s_closem e (rm m) r -> e <= / 1000 ->
  exists p, q_norm2 p = 1 /\ s_qmat p = r /\ s_finq (m3getRotation m q0) /\ s_closeq (6 * e + 36 * uro) (rq (m3getRotation m q0)) p.
Proof.
  intros m q0 r e F RO C S. destruct (P_Rot.getRotation_correct r (Q 0 0 0 0) RO) as [U E]. set (p := m3getRotation r (Q 0 0 0 0)) in *.
  rewrite <- E, <- qmat_eq in C by (rewrite U; lra). destruct (C104_quaternion m q0 p e F U C S) as [FQ [N|N]].
  - exists p. rewrite qmat_eq by (rewrite U; lra). auto.
  - exists (q_neg p). rewrite qneg_qmat by auto. rewrite qmat_eq by (rewrite U; lra). split; auto. unfold q_norm2, q_neg in *. cbn [qx qy qz qw] in *. lra.
Qed.
Lemma near_range : forall q p D, q_norm2 p = 1 -> s_closeq D (rq q) p -> D <= / 500 -> s_range q.
Proof.
  intros q p D U [HX [HY [HZ HW]]] S. destruct p as [x y z w]. unfold s_range, q_norm2, rq in *. cbn [qx qy qz qw] in *.
  destruct (unit_le x y z w) as [X [Y [Z W]]]; [lra|]. assert (D0 : 0 <= D) by (eapply Rle_trans; [apply Rabs_pos|exact HX]).
  apply Rabs_le_inv in HX, HY, HZ, HW, X, Y, Z, W.
  assert (L : / 4 <= B2R (qx q) ^ 2 + B2R (qy q) ^ 2 + B2R (qz q) ^ 2 + B2R (qw q) ^ 2 <= 5).
  { assert (K : forall a b, - D <= a - b <= D -> -1 <= b <= 1 -> b * b - 5 / 1000 <= a ^ 2 <= b * b + 5 / 1000) by (intros a b K1 K2; assert (K3 : a ^ 2 = b * b + (a - b) * (2 * b + (a - b))) by ring; split; nra).
    pose proof (K _ _ HX X). pose proof (K _ _ HY Y). pose proof (K _ _ HZ Z). pose proof (K _ _ HW W). lra. }
  destruct L as [L1 L2]. split.
  - apply Rle_trans with (bpow radix2 (-2)); [apply bpow_le; lia|cbn; lra].
  - apply Rle_trans with (bpow radix2 3); [cbn; lra|apply bpow_le; lia].
Qed.
Lemma close_trans : forall a b e d, Rabs a <= e -> Rabs b <= d -> Rabs (a + b) <= e + d.
Proof. intros. apply Rabs_plus_le; auto. Qed.
Lemma closem_trans : forall e d a b c, s_closem e a b -> s_closem d b c -> s_closem (e + d) a c.
Proof.
  intros e d a b c [[A1 [A2 A3]] [[A4 [A5 A6]] [A7 [A8 A9]]]] [[B1 [B2 B3]] [[B4 [B5 B6]] [B7 [B8 B9]]]]. unfold s_closem, s_close in *. cbn [vx vy vz] in *.
  assert (K : forall x y z, Rabs (x - y) <= e -> Rabs (y - z) <= d -> Rabs (x - z) <= e + d) by (intros x y z P Q; replace (x - z) with (x - y + (y - z)) by ring; apply Rabs_plus_le; auto).
  repeat match goal with |- _ /\ _ => split end; eapply K; eassumption.
Qed.
Lemma closem_sym : forall e a b, s_closem e a b -> s_closem e b a.
Proof.
  intros e a b [[A1 [A2 A3]] [[A4 [A5 A6]] [A7 [A8 A9]]]]. unfold s_closem, s_close in *. cbn [vx vy vz] in *.
  repeat match goal with |- _ /\ _ => split end; rewrite Rabs_minus_sym; assumption.
Qed.
Lemma closem_le : forall e d a b, s_closem e a b -> e <= d -> s_closem d a b.
Proof.
  intros e d a b [[A1 [A2 A3]] [[A4 [A5 A6]] [A7 [A8 A9]]]] L. unfold s_closem, s_close in *. cbn [vx vy vz] in *.
  repeat match goal with |- _ /\ _ => split end; lra.
Qed.
(** back to a matrix: the rotation is found again up to 90 e + 604 u *)
Theorem C104_matrix : forall (m : mat3 F64) (q0 : quat F64) (r : mat3 R) e, s_finm m -> rotation r -> s_closem e (rm m) r -> e <= / 10000 ->
  s_finm (m3setRotation (m3getRotation m q0)) /\ s_closem (90 * e + 604 * uro) (rm (m3setRotation (m3getRotation m q0))) r /\
  exists p, q_norm2 p <> 0 /\ s_closem (64 * uro) (rm (m3setRotation (m3getRotation m q0))) (s_qmat p).
Proof.
  intros m q0 r e F RO C S. destruct (C104_rotation m q0 r e F RO C ltac:(lra)) as [p [U [E [FQ N]]]]. pose proof u_small as US. pose proof uro_pos.
  destruct (qmat_near _ _ _ U N ltac:(lra)) as [NZ CM]. assert (RG := near_range _ _ _ U N ltac:(lra)).
  destruct (setRotation_b _ FQ RG) as [FM CS]. split; auto. split.
  - rewrite <- E. eapply closem_le; [eapply closem_trans; [exact CS|exact CM]|]. lra.
  - exists (rq (m3getRotation m q0)). split; auto.
Qed.
(** quaternion to matrix to quaternion: the same unit quaternion up to its sign and 420 u; q need not be normalized *)
Theorem C104_round_trip : forall (q q0 : quat F64), s_finq q -> s_range q ->
  let q' := m3getRotation (m3setRotation q) q0 in
  s_finq q' /\ (s_closeq (420 * uro) (rq q') (s_unitq (rq q)) \/ s_closeq (420 * uro) (rq q') (q_neg (s_unitq (rq q)))).
Proof.
  intros q q0 F RG q'. destruct (setRotation_b q F RG) as [FM CM]. pose proof (range_nz q RG) as NZ. pose proof u_small as US. pose proof uro_pos.
  assert (P : 0 < q_norm2 (rq q)). { destruct RG as [L _]. pose proof (bpow_gt_0 radix2 (-900)). lra. }
  pose proof (sqrt_lt_R0 _ P) as SP. pose proof (sqrt_sqrt _ (Rlt_le _ _ P)) as SS. set (n := sqrt (q_norm2 (rq q))) in *.
  assert (U : q_norm2 (s_unitq (rq q)) = 1).
  { unfold s_unitq. fold n. unfold q_norm2 at 1. cbn [qx qy qz qw]. apply (Rmult_eq_reg_r (n * n)); [|nra]. rewrite SS at 2. unfold q_norm2. field. lra. }
  assert (E : s_qmat (s_unitq (rq q)) = s_qmat (rq q)).
  { rewrite !qmat_eq; [|auto|rewrite U; lra]. unfold m3setRotation, qlength2. unfold s_unitq at 1 2 3 4. fold n. clear U NZ CM FM q'. revert SP SS. generalize n. unfold q_norm2. destruct (rq q) as [x y z w]. cbn [qx qy qz qw nadd nsub nmul ndiv NumR]. intros k K KK.
    unfold s_unitq, q_norm2. cbn [qx qy qz qw]. replace (sqrt (x ^ 2 + y ^ 2 + z ^ 2 + w ^ 2)) with k by (rewrite <- KK; symmetry; apply sqrt_square; lra).
    assert (D : x * x + y * y + z * z + w * w = k * k) by lra. assert (D' : x / k * (x / k) + y / k * (y / k) + z / k * (z / k) + w / k * (w / k) = 1) by (apply (Rmult_eq_reg_r (k * k)); [|nra]; transitivity (x * x + y * y + z * z + w * w); [field; lra|lra]).
    rewrite D, D'. f_equal; field; lra. }
  rewrite <- E in CM. destruct (C104_quaternion _ q0 _ _ FM U CM ltac:(unfold uro; lra)) as [FQ N]. fold q' in FQ, N. split; auto.
  replace (6 * (64 * uro) + 36 * uro) with (420 * uro) in N by ring. exact N.
Qed.
(** any number of conversions to a quaternion message and back: the error grows at most linearly *)
Theorem C104_drift : forall (n : nat) (t : trans3 F64) (r : mat3 R), s_finm (tR t) -> rotation r -> s_closem (64 * uro) (rm (tR t)) r -> INR n * (6500 * uro) <= / 1000000 ->
  let t' := s_times n (fun t => msg_pose_ (pose_msg t)) t in
  MathTypes.tt t' = MathTypes.tt t /\ s_finm (tR t') /\ s_closem ((64 + 6500 * INR n) * uro) (rm (tR t')) r.
Proof.
  intros n t r F RO C. pose proof u_small as US. pose proof uro_pos as UP.
  assert (K : forall k, INR k * (6500 * uro) <= / 1000000 -> let t' := s_times k (fun t => msg_pose_ (pose_msg t)) t in
    MathTypes.tt t' = MathTypes.tt t /\ s_finm (tR t') /\ s_closem ((64 + 6500 * INR k) * uro) (rm (tR t')) r /\ exists r', rotation r' /\ s_closem (64 * uro) (rm (tR t')) r').
  { intro k. induction k as [|k IH]; intros B.
    - cbn [s_times INR]. split; auto. split; auto. split; [eapply closem_le; [exact C|]; lra|]. exists r. auto.
    - rewrite S_INR in *. destruct IH as [T [FI [CI [r' [RO' C']]]]]; [pose proof (pos_INR k); nra|]. cbn [s_times]. cbv zeta.
      set (t1 := s_times k (fun t => msg_pose_ (pose_msg t)) t) in *.
      destruct (C104_matrix (tR t1) (Q n0 n0 n0 n0) r' (64 * uro) FI RO' C' ltac:(unfold uro; lra)) as [FM [CM [p [NZ CP]]]].
      assert (EQ : tR (msg_pose_ (pose_msg t1)) = m3setRotation (m3getRotation (tR t1) (Q n0 n0 n0 n0))).
      { unfold msg_pose_, pose_msg, msg_mat, mat_msg, quat_msg, msg_quat_. cbn [tR mpo_orientation mq_x mq_y mq_z mq_w]. destruct (m3getRotation (tR t1) (Q n0 n0 n0 n0)). reflexivity. }
      rewrite EQ. split; [|split; [exact FM|split]].
      + rewrite <- T. unfold msg_pose_, pose_msg, msg_vec, point_msg. cbn [MathTypes.tt mpo_position mp_x mp_y mp_z]. destruct (MathTypes.tt t1). reflexivity.
      + assert (A := closem_trans _ _ _ _ _ CM (closem_sym _ _ _ C')). assert (A' := closem_trans _ _ _ _ _ A CI). eapply closem_le; [exact A'|]. pose proof (pos_INR k). nra.
      + exists (s_qmat p). split; auto. rewrite qmat_eq by auto. apply P_Rot.setRotation_rotation. exact NZ. }
  intros B. destruct (K n B) as [A1 [A2 [A3 _]]]. cbv zeta. auto.
Qed.

(** ** The hypotheses are met by ordinary data *)
(** quaternions for each of the four branches, not normalized *)
Definition exq4 (i : nat) : quat F64 := match i with O => Q (nofZ 1) (nofZ 2) (nofZ (-3)) (nofZ 4) | 1%nat => Q (nofZ (-4)) (nofZ 2) (nofZ 1) (nofZ 1) | 2%nat => Q (nofZ 2) (nofZ 7) (nofZ 1) (nofZ (-3)) | _ => Q (nofZ 1) (nofZ 1) (nofZ 5) (nofZ 2) end.
Lemma exq_ok : forall a b c d, (Z.abs a < 100)%Z -> (Z.abs b < 100)%Z -> (Z.abs c < 100)%Z -> (Z.abs d < 100)%Z -> (1 <= a * a + b * b + c * c + d * d)%Z ->
  s_finq (Q (nofZ a) (nofZ b) (nofZ c) (nofZ d) : quat F64) /\ s_range (Q (nofZ a) (nofZ b) (nofZ c) (nofZ d)).
Proof.
  intros a b c d A B C D N. destruct (ofZ_R a ltac:(lia)) as [FA EA]. destruct (ofZ_R b ltac:(lia)) as [FB EB]. destruct (ofZ_R c ltac:(lia)) as [FC EC]. destruct (ofZ_R d ltac:(lia)) as [FD ED].
  split; [repeat split; auto|]. unfold s_range, q_norm2, rq. cbn [qx qy qz qw]. rewrite EA, EB, EC, ED.
  assert (E : IZR a ^ 2 + IZR b ^ 2 + IZR c ^ 2 + IZR d ^ 2 = IZR (a * a + b * b + c * c + d * d)) by (rewrite !plus_IZR, !mult_IZR; ring). rewrite E.
  assert (U : (a * a + b * b + c * c + d * d <= 65536)%Z) by nia. apply IZR_le in N, U. split.
  - apply Rle_trans with (bpow radix2 0); [apply bpow_le; lia|cbn; lra].
  - apply Rle_trans with (bpow radix2 16); [cbn; lra|apply bpow_le; lia].
Qed.
Definition branch_of (m : mat3 F64) : nat := if nltb n0 (nadd (nadd (mxx m) (myy m)) (mzz m)) then 0%nat else if nltb (mxx m) (myy m) then (if nltb (myy m) (mzz m) then 3%nat else 2%nat) else (if nltb (mxx m) (mzz m) then 3%nat else 1%nat).
Example C104_nonvacuous : forall i, (i < 4)%nat -> s_finq (exq4 i) /\ s_range (exq4 i) /\ branch_of (m3setRotation (exq4 i)) = i.
Proof.
  intros i I. do 4 (destruct i as [|i]; [split; [|split]; [| |vm_compute; reflexivity]; apply exq_ok; lia|]). lia.
Qed.
Example C104_drift_nonvacuous : forall (o : vec3 F64), let t := T3 (m3setRotation (exq4 2)) o in let r := s_qmat (rq (exq4 2)) in
  s_finm (tR t) /\ rotation r /\ s_closem (64 * uro) (rm (tR t)) r /\ 64 * uro <= / 10000 /\ INR 1000 * (6500 * uro) <= / 1000000.
Proof.
  intros o t r. destruct (C104_nonvacuous 2 ltac:(lia)) as [F [RG _]]. destruct (setRotation_b _ F RG) as [FM CM]. pose proof (range_nz _ RG) as NZ.
  split; auto. split; [unfold r; rewrite qmat_eq by auto; apply P_Rot.setRotation_rotation; auto|]. split; auto. split; [unfold uro; lra|]. rewrite INR_IZR_INZ. change (Z.of_nat 1000) with 1000%Z. unfold uro. lra.
Qed.

Print Assumptions C104_quaternion.
Print Assumptions C104_rotation.
Print Assumptions C104_matrix.
Print Assumptions C104_round_trip.
Print Assumptions C104_drift.
