(** * C101: the ball test of boxes on doubles *)
From Coq Require Import ZArith Reals Lra Lia Bool.
From Flocq Require Import Core BinarySingleNaN.
From Verif Require Import Num MathTypes Mesh Box Spec SpecRound SpecBallF P_Tac P_Math P_Round P_Round3 P_OctF P_MeshGeo P_InsideF P_BallF.
Local Open Scope R_scope.
Local Notation fin := (is_finite (prec := 53) (emax := 1024)).

Section Ball.
  (** a box of finite doubles with ordered corners, a finite point, a finite radius, all at most 2^400 *)
  Context (b : box F64) (p : vec3 F64) (r : F64).
  Context (F1 : s_finv (b_min b)) (F2 : s_finv (b_max b)) (FP : s_finv p) (FR : s_fin r).
  Context (B1 : s_bound (bpow radix2 400) (rv (b_min b))) (B2 : s_bound (bpow radix2 400) (rv (b_max b))) (BP : s_bound (bpow radix2 400) (rv p)) (BR : Rabs (B2R r) <= bpow radix2 400).
  Context (ORD : s_in_box (rv (b_min b)) (rv (b_max b)) (rv (b_min b))).

  (** a radius of zero or less asks for containment of the point, decided exactly *)
  Theorem C101_point : B2R r <= 0 -> (box_sphere b p r = true <-> s_in_box (rv (b_min b)) (rv (b_max b)) (rv p)).
  Proof.
    intros R0. destruct F1 as [X1 [X2 X3]], F2 as [Y1 [Y2 Y3]], FP as [P1 [P2 P3]]. unfold box_sphere. rewrite (leb_R r n0 FR) by reflexivity. change (B2R (n0 : F64)) with 0.
    rewrite (proj2 (Rleb_true _ _) R0). unfold box_contains. rewrite !leb_R by assumption. unfold s_in_box, rv. cbn [vx vy vz]. rewrite !andb_true_iff, !Rleb_true. tauto.
  Qed.
  Lemma core : 0 < B2R r -> exists c : vec3 F64, box_sphere b p r = nleb (vlength2 (vsub p c)) (nmul r r) /\ s_finv c /\ s_bound (bpow radix2 400) (rv c) /\ s_in_box (rv (b_min b)) (rv (b_max b)) (rv c) /\
    (s_box_ok (rv (b_min b)) (rv (b_max b)) (rv p) -> forall q, s_in_box (rv (b_min b)) (rv (b_max b)) q -> s_norm2 (s_diff (rv p) (rv c)) <= s_norm2 (s_diff (rv p) q)).
  Proof.
    intros R0. destruct F1 as [X1 [X2 X3]], F2 as [Y1 [Y2 Y3]], FP as [P1 [P2 P3]], B1 as [U1 [U2 U3]], B2 as [V1 [V2 V3]]. unfold s_in_box, rv in ORD. cbn [vx vy vz] in ORD. cbn [rv vx vy vz] in *.
    unfold box_sphere. rewrite (leb_R r n0 FR) by reflexivity. change (B2R (n0 : F64)) with 0. rewrite (proj2 (Rleb_false _ _) R0). cbv zeta. rewrite clamp_eq.
    destruct (cl_F _ _ _ X1 Y1 P1 U1 V1 ltac:(tauto)) as [A1 [A2 [A3 A4]]]. destruct (cl_F _ _ _ X2 Y2 P2 U2 V2 ltac:(tauto)) as [D1 [D2 [D3 D4]]]. destruct (cl_F _ _ _ X3 Y3 P3 U3 V3 ltac:(tauto)) as [E1 [E2 [E3 E4]]].
    eexists. split; [reflexivity|]. unfold s_finv, s_bound, s_in_box, rv. cbn [vx vy vz]. split; [auto|]. split; [auto|]. split; [tauto|].
    intros [O1 [O2 O3]] q Q. unfold s_norm2, s_dot, s_diff. cbn [vx vy vz]. cbn [vx vy vz] in O1, O2, O3.
    specialize (A4 O1 (vx q) ltac:(tauto)). specialize (D4 O2 (vy q) ltac:(tauto)). specialize (E4 O3 (vz q) ltac:(tauto)). lra.
  Qed.
  Lemma rr_F : fin (nmul r r) = true /\ (1 - uro) * (B2R r * B2R r) - eta <= B2R (nmul r r) <= (1 + uro) * (B2R r * B2R r) + eta.
  Proof.
    pose proof M400_big as MB. pose proof M400_pos as MP. assert (Q : B2R r * B2R r <= M400 * M400). { assert (A : B2R r * B2R r = Rabs (B2R r) * Rabs (B2R r)) by (rewrite <- Rabs_mult, Rabs_right; [reflexivity|nra]). rewrite A. apply Rmult_le_compat; auto; apply Rabs_pos. }
    destruct (sqr_b r (M400 * M400) FR Q ltac:(nra)) as [F E]. split; auto. apply Rabs_le_inv in E. lra.
  Qed.
  (** true: some point of the box is within the radius, up to rounding *)
  Theorem C101_sound : 0 < B2R r -> box_sphere b p r = true -> s_box_reaches (rv (b_min b)) (rv (b_max b)) (rv p) ((1 + 10 * uro) * (B2R r * B2R r) + 6 * eta).
  Proof.
    intros R0 H. destruct (core R0) as [c [E [FC [BC [IC _]]]]]. rewrite E in H. destruct (dist_F p c FP FC BP BC) as [FD [L U]]. destruct rr_F as [FR2 [RL RU]].
    rewrite leb_R in H by auto. apply Rleb_true in H. exists (rv c). split; auto. pose proof (norm2_nonneg (s_diff (rv p) (rv c))) as N0. pose proof eta_pos as EP.
    assert (Q0 : 0 <= B2R r * B2R r) by nra. set (D := s_norm2 (s_diff (rv p) (rv c))) in *. set (Q := B2R r * B2R r) in *. clearbody D Q. clear - H L RU N0 Q0 EP. unfold uro in *. lra.
  Qed.
  (** a point of the box clearly within the radius is found, unless the box is a few ulp thin and p lies exactly on its upper face *)
  Theorem C101_complete_partial : 0 < B2R r -> s_box_ok (rv (b_min b)) (rv (b_max b)) (rv p) ->
    s_box_reaches (rv (b_min b)) (rv (b_max b)) (rv p) ((1 - 10 * uro) * (B2R r * B2R r) - 10 * eta) -> box_sphere b p r = true.
  Proof.
    intros R0 OK [q [IQ NQ]]. destruct (core R0) as [c [E [FC [BC [_ BEST]]]]]. rewrite E. destruct (dist_F p c FP FC BP BC) as [FD [L U]]. destruct rr_F as [FR2 [RL RU]].
    rewrite leb_R by auto. apply Rleb_true. specialize (BEST OK q IQ). pose proof (norm2_nonneg (s_diff (rv p) (rv c))) as N0. pose proof eta_pos as EP.
    assert (Q0 : 0 <= B2R r * B2R r) by nra. set (D := s_norm2 (s_diff (rv p) (rv c))) in *. set (Q := B2R r * B2R r) in *. set (DQ := s_norm2 (s_diff (rv p) q)) in *. clearbody D Q DQ.
    clear - U RL BEST NQ N0 Q0 EP. unfold uro in *. lra.
  Qed.
End Ball.
Print Assumptions C101_point.
Print Assumptions C101_sound.
Print Assumptions C101_complete_partial.

(** ** the excluded case: the box [2^52+1, 2^52+2] x [-1,1] x [-1,1], whose rounded centre is on its upper x-face *)
Definition zF (z : Z) : F64 := nofZ z.
Definition thin_box : box F64 := Box_ (V3 (zF 4503599627370497) (zF (-1)) (zF (-1))) (V3 (zF 4503599627370498) (zF 1) (zF 1)) mesh_new.
Definition thin_p : vec3 F64 := V3 (zF 4503599627370498) (zF 0) (zF 0).
Lemma zF_R : forall z, (Z.abs z < 2 ^ 53)%Z -> s_fin (zF z) /\ B2R (zF z) = IZR z.
Proof. intros z L. apply (ofZ_R z L). Qed.
Lemma zF_v : forall x y z, (Z.abs x < 2 ^ 53)%Z -> (Z.abs y < 2 ^ 53)%Z -> (Z.abs z < 2 ^ 53)%Z -> s_finv (V3 (zF x) (zF y) (zF z)) /\ rv (V3 (zF x) (zF y) (zF z)) = V3 (IZR x) (IZR y) (IZR z).
Proof. intros x y z X Y Z. destruct (zF_R x X), (zF_R y Y), (zF_R z Z). split; [split; [|split]; auto|]. unfold rv. cbn [vx vy vz]. congruence. Qed.
Lemma big400 : forall x, Rabs x <= 9007199254740992 -> Rabs x <= bpow radix2 400.
Proof. intros x H. eapply Rle_trans; [exact H|]. apply Rle_trans with (bpow radix2 53); [cbn; lra|apply bpow_le; lia]. Qed.
Ltac b400 := unfold s_bound; cbn [vx vy vz]; repeat split; apply big400; apply Rabs_le; lra.
(** a point of the box, with a ball of positive radius around it that is said to miss the box *)
Theorem C101_refuted : exists (b : box F64) (p : vec3 F64) (r : F64), s_finv (b_min b) /\ s_finv (b_max b) /\ s_finv p /\ s_fin r /\
  s_bound (bpow radix2 400) (rv (b_min b)) /\ s_bound (bpow radix2 400) (rv (b_max b)) /\ s_bound (bpow radix2 400) (rv p) /\ Rabs (B2R r) <= bpow radix2 400 /\
  s_in_box (rv (b_min b)) (rv (b_max b)) (rv (b_min b)) /\ 0 < B2R r /\
  s_box_reaches (rv (b_min b)) (rv (b_max b)) (rv p) ((1 - 10 * uro) * (B2R r * B2R r) - 10 * eta) /\ box_contains b p = true /\ box_sphere b p r = false.
Proof.
  destruct (zF_v 4503599627370497 (-1) (-1)) as [A1 A2]; try reflexivity. destruct (zF_v 4503599627370498 1 1) as [B1 B2]; try reflexivity. destruct (zF_v 4503599627370498 0 0) as [P1 P2]; try reflexivity.
  assert (HR : s_fin (nlit 1 2 : F64) /\ B2R (nlit 1 2 : F64) = / 2).
  { split; [vm_compute; reflexivity|]. rewrite <- (SF2R_B2SF _ _ (nlit 1 2 : F64)). assert (E : B2SF (nlit 1 2 : F64) = SpecFloat.S754_finite false 4503599627370496 (-53)) by (vm_compute; reflexivity). rewrite E. unfold SF2R, F2R. cbn. lra. }
  destruct HR as [HF HR]. exists thin_box, thin_p, (nlit 1 2). unfold thin_box, thin_p. cbn [b_min b_max]. rewrite A2, B2, P2, HR.
  repeat (split; [auto; first [b400 | apply big400; rewrite Rabs_right; lra | unfold s_in_box; cbn [vx vy vz]; lra]|]). split.
  - exists (V3 4503599627370498 0 0). split; [unfold s_in_box; cbn [vx vy vz]; lra|]. unfold s_norm2, s_dot, s_diff. cbn [vx vy vz]. assert (E : eta <= / 1000). { apply Rle_trans with (bpow radix2 (-10)); [apply bpow_le; lia|cbn; lra]. } unfold uro. lra.
  - split; vm_compute; reflexivity.
Qed.
Print Assumptions C101_refuted.

(** the hypotheses are met by the box [-1,1]^3 with the point (3,0,0) on either side of the decision, and by the point (1,1,1) on its upper faces *)
Definition unitF : box F64 := Box_ (V3 (zF (-1)) (zF (-1)) (zF (-1))) (V3 (zF 1) (zF 1) (zF 1)) mesh_new.
Definition atF (x : Z) : vec3 F64 := V3 (zF x) (zF (if Z.eqb x 1 then 1 else 0)) (zF (if Z.eqb x 1 then 1 else 0)).
Example C101_nonvacuous :
  (s_finv (b_min unitF) /\ s_finv (b_max unitF) /\ s_bound (bpow radix2 400) (rv (b_min unitF)) /\ s_bound (bpow radix2 400) (rv (b_max unitF)) /\ s_in_box (rv (b_min unitF)) (rv (b_max unitF)) (rv (b_min unitF))) /\
  (forall x r, (x = 3 \/ x = 1)%Z -> (r = 1 \/ r = 3)%Z -> s_finv (atF x) /\ s_bound (bpow radix2 400) (rv (atF x)) /\ s_fin (zF r) /\ Rabs (B2R (zF r)) <= bpow radix2 400 /\ 0 < B2R (zF r) /\
     s_box_ok (rv (b_min unitF)) (rv (b_max unitF)) (rv (atF x))) /\
  s_box_reaches (rv (b_min unitF)) (rv (b_max unitF)) (rv (atF 3)) ((1 - 10 * uro) * (B2R (zF 3) * B2R (zF 3)) - 10 * eta) /\
  s_box_reaches (rv (b_min unitF)) (rv (b_max unitF)) (rv (atF 1)) ((1 - 10 * uro) * (B2R (zF 1) * B2R (zF 1)) - 10 * eta) /\
  box_sphere unitF (atF 3) (zF 3) = true /\ box_sphere unitF (atF 1) (zF 1) = true /\ box_sphere unitF (atF 3) (zF 1) = false /\ box_sphere unitF (atF 3) (zF (-1)) = false.
Proof.
  assert (E : eta <= / 1000). { apply Rle_trans with (bpow radix2 (-10)); [apply bpow_le; lia|cbn; lra]. } assert (E0 := eta_pos).
  destruct (zF_v (-1) (-1) (-1)) as [A1 A2]; try reflexivity. destruct (zF_v 1 1 1) as [B1 B2]; try reflexivity. destruct (zF_v 3 0 0) as [P1 P2]; try reflexivity.
  destruct (zF_R 1) as [R1 R1']; [reflexivity|]. destruct (zF_R 3) as [R3 R3']; [reflexivity|].
  unfold unitF. cbn [b_min b_max]. rewrite A2, B2.
  split; [repeat (split; [auto; b400|]); unfold s_in_box; cbn [vx vy vz]; lra|]. split; [|split; [|split]].
  - intros x r X R. assert (XX : s_finv (atF x) /\ (rv (atF x) = V3 3 0 0 \/ rv (atF x) = V3 1 1 1)) by (destruct X as [-> | ->]; split; auto).
    assert (RR : s_fin (zF r) /\ (B2R (zF r) = 1 \/ B2R (zF r) = 3)) by (destruct R as [-> | ->]; split; auto).
    destruct XX as [XF XV], RR as [RF RV]. split; auto. split; [destruct XV as [-> | ->]; b400|]. split; auto. split; [apply big400; destruct RV as [-> | ->]; rewrite Rabs_right; lra|].
    split; [destruct RV as [-> | ->]; lra|].
    assert (AX : forall y, s_axis_ok (-1) 1 y). { intros y. left. rewrite (Rabs_left (-1)), (Rabs_right 1) by lra. unfold uro. lra. }
    unfold s_box_ok. cbn [vx vy vz]. auto.
  - change (atF 3) with (V3 (zF 3) (zF 0) (zF 0)). rewrite P2, R3'. exists (V3 1 0 0). split; [unfold s_in_box; cbn [vx vy vz]; lra|]. unfold s_norm2, s_dot, s_diff, uro. cbn [vx vy vz]. lra.
  - change (atF 1) with (V3 (zF 1) (zF 1) (zF 1)). rewrite B2, R1'. exists (V3 1 1 1). split; [unfold s_in_box; cbn [vx vy vz]; lra|]. unfold s_norm2, s_dot, s_diff, uro. cbn [vx vy vz]. lra.
  - split; [|split; [|split]]; vm_compute; reflexivity.
Qed.
