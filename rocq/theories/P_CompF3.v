(** Composite shapes on doubles, part 3: containment and ball test of trees of boxes *)
From Coq Require Import ZArith NArith List Bool Lia Reals Lra Psatz.
From Flocq Require Import Core BinarySingleNaN.
From Verif Require Import Num NumOrd MathTypes Outcome Mesh Box Composite Spec SpecComposite SpecRound SpecBallF SpecCompF P_Tac P_Math P_Rot P_Mesh P_MeshGeo P_Box P_BoxMesh P_Composite.
From Verif Require Import P_Round P_Round2 P_Round3 P_OctF P_InsideF P_BallF P_CompF1 P_CompF2 Props_BallF.
Import ListNotations.
Local Open Scope R_scope.
Local Notation fin := (is_finite (prec := 53) (emax := 1024)).

(** ** the ball test of one box, with an absolute slack instead of the condition on thin boxes *)
Lemma rng_400 : forall m, rng m -> 4 * m <= M400 /\ 1000 * eta <= uro * ((uro * m) * (uro * m)) /\ 1000 * eta <= (uro * m) * (uro * m).
Proof.
  intros m [A B]. assert (K : 1000 * eta <= uro * ((uro * m) * (uro * m))).
  2: { split; [|split; auto; assert (Q := Rle_0_sqr (uro * m)); unfold Rsqr in Q; set (z := uro * m * (uro * m)) in *; clearbody z; unfold uro in K; lra]. 
  unfold M400. apply Rle_trans with (bpow radix2 2 * bpow radix2 398); [change (bpow radix2 2) with 4; lra|]. rewrite <- bpow_plus. apply Rle_refl. }
  assert (U : uro = bpow radix2 (-53)) by reflexivity. assert (L : bpow radix2 (-453) <= uro * m).
    { rewrite U. change (-453)%Z with (-53 + -400)%Z. rewrite bpow_plus. apply Rmult_le_compat_l; [apply bpow_ge_0|auto]. }
    apply Rle_trans with (bpow radix2 (-53) * (bpow radix2 (-453) * bpow radix2 (-453))); [|rewrite U in *; apply Rmult_le_compat_l; [apply bpow_ge_0|apply Rmult_le_compat; auto; apply bpow_ge_0]].
    rewrite <- !bpow_plus. unfold eta. apply Rle_trans with (bpow radix2 10 * bpow radix2 (-1075)); [apply Rmult_le_compat_r; [apply bpow_ge_0|change (bpow radix2 10) with 1024; lra]|].
    rewrite <- bpow_plus. apply bpow_le. lia.
Qed.
Lemma sq_abs : forall a b, a * a <= b * b -> Rabs a <= Rabs b.
Proof. intros a b H. apply Rsqr_le_abs_0. exact H. Qed.
Lemma cl_near : forall (lo hi x : F64) N, fin lo = true -> fin hi = true -> fin x = true -> Rabs (B2R lo) <= N -> Rabs (B2R hi) <= N -> N <= M400 -> B2R lo <= B2R hi ->
  let c := cl lo hi x (ctr lo hi) in forall y, B2R lo <= y <= B2R hi -> Rabs (B2R x - B2R c) <= Rabs (B2R x - y) + (16 * uro * N + 8 * eta).
Proof.
  intros lo hi x N FL FH FX BL BH NM L c y Y. destruct (cl_F lo hi x FL FH FX ltac:(lra) ltac:(lra) L) as [FC [IC [_ BEST]]]. fold c in FC, IC, BEST.
  pose proof uro_pos as UP. pose proof eta_pos as EP. pose proof (Rabs_pos (B2R lo)). pose proof (Rabs_pos (B2R hi)).
  destruct (Rlt_le_dec (8 * uro * (Rabs (B2R lo) + Rabs (B2R hi)) + 8 * eta) (B2R hi - B2R lo)) as [W|W].
  - specialize (BEST (or_introl W) y Y). apply sq_abs in BEST. unfold uro in *. lra.
  - replace (B2R x - B2R c) with ((B2R x - y) + (y - B2R c)) by ring. eapply Rle_trans; [apply Rabs_triang|]. apply Rplus_le_compat_l.
    apply Rle_trans with (B2R hi - B2R lo); [apply Rabs_le; lra|]. unfold uro in *. lra.
Qed.
Lemma dist_diff : forall a b, s_norm2 (s_diff a b) = s_dist2 a b.
Proof. intros. unfold s_norm2, s_dot, s_diff, s_dist2. cbn [vx vy vz]. ring. Qed.
Section OneBall.
  Context (m : R) (RM : rng m) (b : box F64) (p : vec3 F64) (r : F64).
  Context (F1 : s_finv (b_min b)) (F2 : s_finv (b_max b)) (FP : s_finv p) (FR : s_fin r).
  Context (B1 : s_bound (11 / 10 * m) (rv (b_min b))) (B2 : s_bound (11 / 10 * m) (rv (b_max b))) (BP : s_bound (22 / 10 * m) (rv p)).
  Context (R1 : 0 < B2R r) (R2 : B2R r <= bpow radix2 400) (ORD : s_ordered (rv (b_min b)) (rv (b_max b))).
  Lemma ball_prep : s_bound (bpow radix2 400) (rv (b_min b)) /\ s_bound (bpow radix2 400) (rv (b_max b)) /\ s_bound (bpow radix2 400) (rv p) /\
    Rabs (B2R r) <= bpow radix2 400 /\ s_in_box (rv (b_min b)) (rv (b_max b)) (rv (b_min b)).
  Proof.
    destruct (rng_400 m RM) as [M4 _]. destruct (rng_eta m RM) as [MP _]. unfold M400 in M4. repeat (split; [eapply bound_le; [eassumption|lra]|]). split; [rewrite Rabs_right; lra|].
    unfold s_ordered, s_in_box in *. lra.
  Qed.
  Lemma ball_sound : box_sphere b p r = true -> exists q, s_in_box (rv (b_min b)) (rv (b_max b)) q /\ s_dist (rv p) q <= (1 + 10 * uro) * B2R r + 40 * uro * m.
  Proof.
    destruct ball_prep as [Q1 [Q2 [Q3 [Q4 Q5]]]]. intros H. destruct (C101_sound b p r F1 F2 FP FR Q1 Q2 Q3 Q4 Q5 R1 H) as [q [I D]]. exists q. split; auto.
    destruct (rng_400 m RM) as [_ [_ TH]]. destruct (rng_eta m RM) as [MP _]. pose proof uro_pos as UP. rewrite dist_diff in D.
    assert (U0 : 0 <= uro * m) by nra. apply dist_le; [nra|].
    set (x := uro * m) in *. replace (40 * uro * m) with (40 * x) by (unfold x; ring). clearbody x.
    assert (0 <= B2R r * x) by nra. assert (0 <= B2R r * B2R r) by nra. clear - D TH H0 H1 U0. set (y := B2R r) in *. clearbody y. unfold uro. 
    replace (((1 + 10 * / 9007199254740992) * y + 40 * x) * ((1 + 10 * / 9007199254740992) * y + 40 * x)) with ((1 + 10 * / 9007199254740992) * (1 + 10 * / 9007199254740992) * (y * y) + (80 * (1 + 10 * / 9007199254740992)) * (y * x) + 1600 * (x * x)) by ring.
    pose proof eta_pos. unfold uro in *. lra.
  Qed.
  Lemma ball_complete : (exists q, s_in_box (rv (b_min b)) (rv (b_max b)) q /\ s_dist (rv p) q <= (1 - 10 * uro) * B2R r - 40 * uro * m) -> box_sphere b p r = true.
  Proof.
    intros [q [I D]]. destruct ball_prep as [Q1 [Q2 [Q3 [Q4 Q5]]]]. destruct (rng_400 m RM) as [M4 [TH _]]. destruct (rng_eta m RM) as [MP [EM _]].
    destruct (rr_F r FR Q4) as [FR2 [RL _]]. pose proof eta_pos as EP. pose proof uro_pos as UP.
    destruct F1 as [X1 [X2 X3]], F2 as [Y1 [Y2 Y3]], FP as [P1 [P2 P3]], B1 as [U1 [U2 U3]], B2 as [W1 [W2 W3]]. pose proof ORD as [OX [OY OZ]]. unfold s_in_box in I. cbn [rv vx vy vz] in *.
    unfold box_sphere. rewrite (leb_R r n0 FR) by reflexivity. change (B2R (n0 : F64)) with 0. rewrite (proj2 (Rleb_false _ _) R1). cbv zeta. rewrite clamp_eq.
    assert (NM : 11 / 10 * m <= M400) by lra.
    pose proof (cl_near _ _ _ _ X1 Y1 P1 U1 W1 NM OX (vx q) ltac:(tauto)) as A1. pose proof (cl_near _ _ _ _ X2 Y2 P2 U2 W2 NM OY (vy q) ltac:(tauto)) as A2. pose proof (cl_near _ _ _ _ X3 Y3 P3 U3 W3 NM OZ (vz q) ltac:(tauto)) as A3. cbv zeta in A1, A2, A3.
    destruct (cl_F _ _ (vx p) X1 Y1 P1 ltac:(lra) ltac:(lra) OX) as [C1 [_ [E1 _]]]. destruct (cl_F _ _ (vy p) X2 Y2 P2 ltac:(lra) ltac:(lra) OY) as [C2 [_ [E2 _]]]. destruct (cl_F _ _ (vz p) X3 Y3 P3 ltac:(lra) ltac:(lra) OZ) as [C3 [_ [E3 _]]].
    match goal with |- nleb (vlength2 (vsub p ?c0)) _ = true => set (c := c0) in * end.
    assert (FC : s_finv c) by (unfold c; split; [|split]; auto). assert (BC : s_bound M400 (rv c)) by (unfold c, rv, s_bound; cbn [vx vy vz]; auto).
    destruct (dist_F p c ltac:(split; [|split]; auto) FC Q3 BC) as [FD [_ U]].
    rewrite leb_R by auto. apply Rleb_true.
    assert (W : 16 * uro * (11 / 10 * m) + 8 * eta <= 18 * (uro * m)) by (unfold uro in *; lra). set (w := 16 * uro * (11 / 10 * m) + 8 * eta) in *.
    (* an auxiliary point: c moved by w towards q *)
    assert (DC : s_dist (rv p) (rv c) <= s_dist (rv p) q + 7 / 4 * w).
    { assert (W0 : 0 <= w) by (unfold w; nra).
      assert (AX : forall x c y, Rabs (x - c) <= Rabs (x - y) + w -> exists z, Rabs (z - c) <= w /\ Rabs (x - z) <= Rabs (x - y)).
      { intros x c' y H. destruct (Rle_lt_dec (Rabs (x - c')) (Rabs (x - y))) as [L|L].
        - exists c'. split; auto. replace (c' - c') with 0 by ring. rewrite Rabs_R0. auto.
        - destruct (Rle_lt_dec c' x) as [S|S].
          + exists (x - Rabs (x - y)). rewrite (Rabs_right (x - c')) in * by lra. pose proof (Rabs_pos (x - y)) as PA. split; [apply Rabs_le; lra|]. replace (x - (x - Rabs (x - y))) with (Rabs (x - y)) by ring. rewrite Rabs_Rabsolu. lra.
          + exists (x + Rabs (x - y)). rewrite (Rabs_left (x - c')) in * by lra. pose proof (Rabs_pos (x - y)) as PA. split; [apply Rabs_le; lra|]. replace (x - (x + Rabs (x - y))) with (- Rabs (x - y)) by ring. rewrite Rabs_Ropp, Rabs_Rabsolu. lra. }
      destruct (AX _ _ _ A1) as [z1 [Z1 Z1']]. destruct (AX _ _ _ A2) as [z2 [Z2 Z2']]. destruct (AX _ _ _ A3) as [z3 [Z3 Z3']].
      eapply Rle_trans; [apply (dist_tri _ (V3 z1 z2 z3))|]. apply Rplus_le_compat.
      - unfold s_dist. apply sqrt_le_1_alt. unfold s_dist2. cbn [rv vx vy vz]. apply Rsqr_le_abs_1 in Z1', Z2', Z3'. unfold Rsqr in *. nra.
      - apply close_dist; auto. unfold s_close. cbn [rv vx vy vz c]. auto. }
    assert (DL : s_dist (rv p) (rv c) <= (1 - 10 * uro) * B2R r - 8 * (uro * m)) by lra.
    pose proof (dist_pos (rv p) (rv c)) as DP. rewrite dist_diff, <- dist_sq in U. set (d := s_dist (rv p) (rv c)) in *.
    assert (X0 : 0 < uro * m) by nra. set (x := uro * m) in *. set (y := B2R r) in *. assert (LX : 8 * x <= y) by (unfold uro in *; nra).
    assert (DD : d * d <= ((1 - 10 * uro) * y) * ((1 - 10 * uro) * y)) by (apply Rmult_le_compat; nra).
    assert (XY : 64000 * eta <= uro * (y * y)). { assert (64 * (x * x) <= y * y) by nra. assert (uro * (64 * (x * x)) <= uro * (y * y)) by (apply Rmult_le_compat_l; lra). lra. }
    eapply Rle_trans; [exact U|]. eapply Rle_trans; [|exact RL]. change (B2R r) with y. clear - DD XY EP. set (Y := y * y) in *.
    replace (((1 - 10 * uro) * y) * ((1 - 10 * uro) * y)) with ((1 - 10 * uro) * (1 - 10 * uro) * Y) in DD by (unfold Y; ring). clearbody Y.
    assert (H : (1 + 8 * uro) * (d * d) <= (1 + 8 * uro) * ((1 - 10 * uro) * (1 - 10 * uro) * Y)) by (apply Rmult_le_compat_l; [unfold uro; lra|auto]). 
    unfold uro in *. lra.
  Qed.
End OneBall.
