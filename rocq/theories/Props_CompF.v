(** * C111: composite shapes on doubles *)
From Coq Require Import ZArith NArith List Bool Lia Reals Lra.
From Flocq Require Import Core BinarySingleNaN.
From Verif Require Import Num MathTypes Outcome Mesh Box Composite Spec SpecComposite SpecRound SpecCompF P_Tac P_Math P_Rot P_Round P_Round2 P_Round3 P_InsideF P_CompF1 P_CompF2 P_CompF3 P_CompF4 Props_Round.
Import ListNotations.
Local Open Scope R_scope.

Section Shape.
  (** a history of addShape calls on doubles, of any depth k, drawn from a tree of real boxes in rigid poses; the rotation matrices are
      within rho of the exact rotations, all boxes and shifted frames fit in a ball of radius m, and there are fewer than 2^29 boxes *)
  Context (rho m : R) (k : nat) (t : ctree F64) (t' : ctree R).
  Context (RHO : 0 <= rho <= 1 / 100) (SIZE : bpow radix2 (-400) <= m <= bpow radix2 398).
  Context (DRAWN : s_drawn rho t t') (DEPTH : s_depth k t') (WITHIN : s_within m t') (COUNT : (N.of_nat (8 * s_nboxes t') < 2^32)%N).
  (** the error: one contribution for each level *)
  Let e := INR k * ((20 * rho + 150 * uro) * m).
  Context (SMALL : e <= m / 100).

  Lemma the_shape : exists ch, build t = Ret ch /\ fbuilt rho m k m t' ch.
  Proof. apply (fbuild rho m RHO SIZE t' t k m DRAWN DEPTH WITHIN (Rle_refl m) SMALL COUNT). Qed.
  (** the shape can be built; a point reported to be inside is in a box grown by e, and a point in a box shrunk by e is reported *)
  Theorem C111_contains : exists ch, build t = Ret ch /\ forall p : vec3 F64, s_finv p -> s_norm (rv p) <= m ->
    exists b, ch_contains ch p = Ret b /\ (b = true -> s_in_by e t' (rv p)) /\ (s_in_by (- e) t' (rv p) -> b = true).
  Proof.
    destruct the_shape as [ch [E B]]. exists ch. split; auto. intros p F N. pose proof (fb_c _ _ _ _ _ _ B (rv p) p 0 F) as H. rewrite dist_self in H. unfold er, del in H. rewrite Rplus_0_l in H.
    apply H; auto; [lra|lra].
  Qed.
  (** the ball test: true only if some point of the shape is within the radius (up to 2 e, 40 u m and 10 u of the radius),
      and true if some point of the shape is within the radius by that much *)
  Theorem C111_ball : exists ch, build t = Ret ch /\ forall (p : vec3 F64) (r : F64), s_finv p -> s_norm (rv p) <= m -> s_fin r -> 0 < B2R r -> B2R r <= bpow radix2 400 ->
    exists b, ch_sphere ch p r = Ret b /\
      (b = true -> exists q, s_in t' q /\ s_dist (rv p) q <= (1 + 10 * uro) * B2R r + (2 * e + 40 * uro * m)) /\
      ((exists q, s_in t' q /\ s_dist (rv p) q <= (1 - 10 * uro) * B2R r - (2 * e + 40 * uro * m)) -> b = true).
  Proof.
    destruct the_shape as [ch [E B]]. exists ch. split; auto. intros p r F N FR R1 R2. pose proof (fb_b _ _ _ _ _ _ B (rv p) p 0 r F) as H. rewrite dist_self in H. unfold er, th, del in H. rewrite Rplus_0_l in H.
    destruct H as [b [H1 [H2 H3]]]; auto; [lra|lra|]. exists b. split; auto. split.
    - intros X. destruct (H2 X) as [q [Q1 Q2]]. exists q. split; auto. unfold e. lra.
    - intros [q [Q1 Q2]]. apply H3. exists q. split; auto. unfold e in Q2. lra.
  Qed.
  (** a radius of zero or less asks for containment *)
  Theorem C111_point : exists ch, build t = Ret ch /\ forall (p : vec3 F64) (r : F64), s_fin r -> B2R r <= 0 -> ch_sphere ch p r = ch_contains ch p.
  Proof.
    destruct the_shape as [ch [E B]]. exists ch. split; auto. intros p r FR R0. apply (fb_0 _ _ _ _ _ _ B). rewrite (leb_R r n0 FR) by reflexivity. change (B2R (n0 : F64)) with 0. apply Rleb_true. auto.
  Qed.
End Shape.
Print Assumptions C111_contains.
Print Assumptions C111_ball.
Print Assumptions C111_point.

(** ** What the margins mean: a point in the grown region is next to the shape, and a point in the shrunk region has a ball around it inside the shape *)
Theorem C111_margins : forall e t p, 0 <= e -> s_wf t ->
  (s_in_by e t p -> exists q, s_in t q /\ s_dist p q <= 7 / 4 * e) /\ (s_in_by (- e) t p -> forall q, s_dist q p <= e -> s_in t q) /\ (s_in_by 0 t p <-> s_in t p).
Proof.
  assert (AR : forall t, s_wf t -> all_rigid t). { induction t as [mn mx|l IH] using P_Composite.ctree_ind'; intros W; constructor. inversion W as [|? H]; subst. intros t pose I. destruct (H _ _ I). eauto. }
  intros e t p E W. split; [|split].
  - intros H. revert W. induction H as [mn mx p H|l t pose q I H IH]; intros W.
    + inversion W as [? ? O|]; subst. unfold s_in_box in H. cbn [vx vy vz] in H.
      assert (CL : forall lo hi x, lo <= hi -> lo - e <= x <= hi + e -> exists y, lo <= y <= hi /\ Rabs (x - y) <= e).
      { intros lo' hi' x LH LX. destruct (Rlt_le_dec x lo') as [C|C]; [exists lo'; split; [lra|apply Rabs_le; lra]|]. destruct (Rlt_le_dec hi' x) as [C'|C']; [exists hi'|exists x]; (split; [lra|apply Rabs_le; lra]). }
      destruct O as [O1 [O2 O3]]. destruct H as [H1 [H2 H3]].
      destruct (CL _ _ _ O1 H1) as [y1 [Y1 Z1]]. destruct (CL _ _ _ O2 H2) as [y2 [Y2 Z2]]. destruct (CL _ _ _ O3 H3) as [y3 [Y3 Z3]].
      exists (V3 y1 y2 y3). split; [constructor; unfold s_in_box; cbn [vx vy vz]; auto|]. apply close_dist; auto. unfold s_close. cbn [vx vy vz]. auto.
    + inversion W as [|? H']; subst. destruct (H' _ _ I) as [W' RG]. destruct (IH W') as [y [Y1 Y2]]. exists (tapply pose y). split; [econstructor; eauto|]. rewrite rigid_dist; auto.
  - intros H q D. eapply in_ball; eauto.
  - split.
    + induction 1 as [mn mx q H|l t0 pose q I H IH]; [constructor; unfold s_in_box in *; cbn [vx vy vz] in *; lra|]. econstructor; eauto. apply IH. inversion W as [|? H']; subst. apply (H' _ _ I).
    + induction 1 as [mn mx q H|l t0 pose q I H IH]; [constructor; unfold s_in_box in *; cbn [vx vy vz] in *; lra|]. econstructor; eauto. apply IH. inversion W as [|? H']; subst. apply (H' _ _ I).
Qed.
Print Assumptions C111_margins.
(** a pose given by an origin and any quaternion of sane length is drawn from the pose with the exact rotation, with rho = 64 u *)
Theorem C111_quaternion_pose : forall (q : quat F64) (o : vec3 F64), s_finq q -> s_range q -> s_finv o ->
  s_pose_of (64 * uro) (T3 (m3setRotation q) o) (T3 (s_qmat (rq q)) (rv o)).
Proof.
  intros q o F G FO. destruct (C86_matrix q F G) as [FM CM]. unfold s_pose_of. cbn [tR MathTypes.tt]. split; [exact FM|]. split; [exact FO|]. split; [|split; [reflexivity|exact CM]]. unfold rigid. cbn [tR].
  assert (N : q_norm2 (rq q) <> 0) by (destruct G as [G _]; pose proof (bpow_gt_0 radix2 (-900)); lra). rewrite qmat_eq by auto. apply setRotation_rotation; auto.
Qed.
Print Assumptions C111_quaternion_pose.

(** ** The hypotheses are met by a composite of two unit boxes, one of them in a nested composite, with poses given by the quaternion (1,2,3,4) *)
Definition ubF : ctree F64 := TBox (V3 (nofZ (-1)) (nofZ (-1)) (nofZ (-1))) (V3 (nofZ 1) (nofZ 1) (nofZ 1)).
Definition ubR : ctree R := TBox (V3 (-1) (-1) (-1)) (V3 1 1 1).
Definition poseF : trans3 F64 := T3 (m3setRotation exq) exo.
Definition poseR : trans3 R := T3 (s_qmat (rq exq)) (rv exo).
Definition exF : ctree F64 := TComp [(ubF, poseF); (TComp [(ubF, poseF)], poseF)].
Definition exR : ctree R := TComp [(ubR, poseR); (TComp [(ubR, poseR)], poseR)].
Definition asks (p : vec3 F64) : outcome bool := let* ch := build exF in ch_contains ch p.
Example C111_nonvacuous :
  (0 <= 64 * uro <= 1 / 100 /\ bpow radix2 (-400) <= 100 <= bpow radix2 398 /\ s_drawn (64 * uro) exF exR /\ s_depth 2 exR /\ s_within 100 exR /\
   (N.of_nat (8 * s_nboxes exR) < 2^32)%N /\ INR 2 * ((20 * (64 * uro) + 150 * uro) * 100) <= 100 / 100) /\
  (s_finv exo /\ s_norm (rv exo) <= 100 /\ s_in_by (- (INR 2 * ((20 * (64 * uro) + 150 * uro) * 100))) exR (rv exo)) /\
  (match asks exo with Ret b => b | _ => false end) = true /\ (match asks (V3 n0 n0 n0) with Ret b => negb b | _ => false end) = true.
Proof.
  destruct exqr as [FQ RQ]. destruct (exv 10 (-20) 5 20) as [FO [_ EO]]; try lia; try (apply Rabs_le; lra). change (V3 (nofZ 10) (nofZ (-20)) (nofZ 5)) with exo in *.
  destruct (exv (-1) (-1) (-1) 1) as [FA [_ EA]]; try lia; try (apply Rabs_le; lra). destruct (exv 1 1 1 1) as [FB [_ EB]]; try lia; try (apply Rabs_le; lra).
  assert (UB : s_drawn (64 * uro) ubF ubR). { unfold ubF, ubR. rewrite <- EA, <- EB. constructor; auto. rewrite EA, EB. unfold s_ordered. cbn [vx vy vz]. lra. }
  assert (PO : s_pose_of (64 * uro) poseF poseR) by (apply C111_quaternion_pose; auto).
  assert (NO : s_norm (MathTypes.tt poseR) <= 23). { unfold poseR. cbn [MathTypes.tt]. rewrite EO. unfold s_norm, s_dot. cbn [vx vy vz]. rewrite <- (sqrt_square 23) by lra. apply sqrt_le_1_alt. lra. }
  assert (UW : forall x, 2 <= x -> s_within x ubR). { intros x X. constructor. intros q Q. unfold s_in_box in Q. cbn [vx vy vz] in Q. apply Rle_trans with 2; auto. unfold s_norm. rewrite <- (sqrt_square 2) by lra. apply sqrt_le_1_alt. unfold s_dot. nra. }
  split; [|split].
  - split; [unfold uro; lra|]. split. { split; [apply Rle_trans with (bpow radix2 0); [apply bpow_le; lia|cbn; lra]|apply Rle_trans with (bpow radix2 7); [cbn; lra|apply bpow_le; lia]]. }
    split. { constructor. constructor; [split; auto|]. constructor; [|constructor]. split; auto. cbn [fst]. constructor. constructor; [split; auto|constructor]. }
    split. { constructor. intros t pose [[= <- _]|[[= <- _]|[]]]; constructor. intros t' pose' [[= <- _]|[]]. constructor. }
    split. { constructor; [lra|]. intros t pose [[= <- <-]|[[= <- <-]|[]]]; [apply UW; lra|]. constructor; [lra|]. intros t' pose' [[= <- <-]|[]]. apply UW. lra. }
    split; [reflexivity|]. cbn [INR]. unfold uro. lra.
  - split; auto. split; [unfold poseR in NO; cbn [MathTypes.tt] in NO; lra|].
    replace (rv exo) with (tapply poseR (V3 0 0 0)) by apply apply_zero. econstructor; [left; reflexivity|]. unfold ubR. constructor. unfold s_in_box. cbn [vx vy vz INR]. unfold uro. lra.
  - split; vm_compute; reflexivity.
Qed.
