(** * C115: boxes on doubles *)
From Coq Require Import ZArith NArith List Bool Lia Reals Lra Psatz.
From Flocq Require Import Core BinarySingleNaN.
From Verif Require Import Num NumOrd MathTypes Outcome Mesh Box Spec SpecRound SpecBoxF P_Tac P_Math P_Box P_BoxMesh.
From Verif Require Import P_Round P_Round2 P_Round3 P_OctF P_InsideF P_BallF P_CompF1 P_CompF2 P_BoxF Props_Round.
Import ListNotations.
Local Open Scope R_scope.
Local Notation fin := (is_finite (prec := 53) (emax := 1024)).

(** ** One call of enclose *)
(** for boxes with any history in which no coordinate exceeds M and any pose (rotation or not): the new box contains the old one exactly,
    every point of the other box, moved exactly, is in the new box grown by e, and the new box shrunk by e is the smallest *)
Theorem C115_enclose : forall A M N E E' (b o : box F64) (b0 o0 : box R) pose, A * M <= big / 8 -> N <= big / 8 ->
  s_twin A M N E b b0 -> s_twin A M N E' o o0 -> s_posed A N pose -> let b' := box_enclose b o pose in let e := s_step A M N in
  (s_finv (b_min b') /\ s_finv (b_max b')) /\
  (forall q, s_in_box (rv (b_min b)) (rv (b_max b)) q -> s_in_box (rv (b_min b')) (rv (b_max b')) q) /\
  (forall q, s_in_box (rv (b_min o)) (rv (b_max o)) q ->
     s_in_box (V3 (vx (rv (b_min b')) - e) (vy (rv (b_min b')) - e) (vz (rv (b_min b')) - e)) (V3 (vx (rv (b_max b')) + e) (vy (rv (b_max b')) + e) (vz (rv (b_max b')) + e))
       (s_moved (rm (tR pose)) (rv (MathTypes.tt pose)) q)) /\
  (forall lo hi, (forall q, s_in_box (rv (b_min b)) (rv (b_max b)) q -> s_in_box lo hi q) ->
     (forall q, s_in_box (rv (b_min o)) (rv (b_max o)) q -> s_in_box lo hi (s_moved (rm (tR pose)) (rv (MathTypes.tt pose)) q)) ->
     forall q, s_in_box (rv (b_min b')) (rv (b_max b')) q -> s_in_box (V3 (vx lo - e) (vy lo - e) (vz lo - e)) (V3 (vx hi + e) (vy hi + e) (vz hi + e)) q).
Proof.
  intros A M N E E' b o b0 o0 pose AM NB TB TO PO b' e. destruct (twin_ok A M N AM NB _ _ _ TB) as [IB _]. destruct (twin_ok A M N AM NB _ _ _ TO) as [IO _].
  destruct (enclose_F A M N AM NB b o pose IB IO PO) as [F1 [F2 _]]. destruct (enclose_step A M N AM NB b o pose IB IO PO) as [S1 [S2 S3]].
  split; [split; auto|]. split; [exact S1|]. split; [exact S2|exact S3].
Qed.
Print Assumptions C115_enclose.
(** ** Any history: the corners stay within the accumulated error of the corners of the same history in exact numbers; they are finite and in order *)
Theorem C115_history : forall A M N E b b', A * M <= big / 8 -> N <= big / 8 -> s_twin A M N E b b' ->
  s_sane M (b_min b) (b_max b) /\ s_close E (rv (b_min b)) (b_min b') /\ s_close E (rv (b_max b)) (b_max b').
Proof. intros A M N E b b' AM NB H. destruct (twin_ok A M N AM NB _ _ _ H) as [[I _ _ _] [C1 [C2 _]]]. auto. Qed.
Print Assumptions C115_history.
(** ** Enclosing freshly made boxes one after the other: however many, the error does not add up *)
Inductive s_chain (A M N : R) : box F64 -> box R -> Prop :=
| sc_make : forall mn mx, s_sane M mn mx -> s_chain A M N (box_make mn mx) (box_make (rv mn) (rv mx))
| sc_next : forall b b' mn mx pose, s_chain A M N b b' -> s_sane M mn mx -> s_posed A N pose ->
    s_bound M (rv (b_min (box_enclose b (box_make mn mx) pose))) -> s_bound M (rv (b_max (box_enclose b (box_make mn mx) pose))) ->
    s_chain A M N (box_enclose b (box_make mn mx) pose) (box_enclose b' (box_make (rv mn) (rv mx)) (s_exact_pose pose)).
Theorem C115_chain : forall A M N b b', 0 <= A -> 0 <= M -> 0 <= N -> A * M <= big / 8 -> N <= big / 8 -> s_chain A M N b b' ->
  s_close (s_step A M N) (rv (b_min b)) (b_min b') /\ s_close (s_step A M N) (rv (b_max b)) (b_max b').
Proof.
  intros A M N b b' A0 M0 N0 AM NB H.
  assert (P : 0 <= s_step A M N). { unfold s_step. pose proof uro_pos. pose proof eta_pos. pose proof (Rmult_le_pos _ _ A0 M0) as AM0. pose proof (Rmult_le_pos _ _ (Rlt_le _ _ uro_pos) AM0). pose proof (Rmult_le_pos _ _ (Rlt_le _ _ uro_pos) N0). lra. }
  assert (K : exists E, E <= s_step A M N /\ s_twin A M N E b b').
  { induction H as [mn mx S|b b' mn mx pose H IH S PO B1 B2]; [exists 0; split; [exact P|constructor; exact S]|]. destruct IH as [E [L T]].
    exists (Rmax E (3 * A * 0 + s_step A M N)). split; [apply Rmax_lub; lra|]. apply tw_enclose; auto. constructor. exact S. }
  destruct K as [E [L T]]. destruct (C115_history A M N E b b' AM NB T) as [_ [C1 C2]]. split; eapply close_le; eauto.
Qed.
Print Assumptions C115_chain.

(** ** getSize: relative error u in each component, never negative, and zero only if the corners agree *)
Theorem C115_size : forall M (b : box F64), M <= big / 4 -> s_sane M (b_min b) (b_max b) -> let mn := rv (b_min b) in let mx := rv (b_max b) in let s := rv (box_size b) in
  s_finv (box_size b) /\
  (Rabs (vx s - (vx mx - vx mn)) <= uro * (vx mx - vx mn) /\ Rabs (vy s - (vy mx - vy mn)) <= uro * (vy mx - vy mn) /\ Rabs (vz s - (vz mx - vz mn)) <= uro * (vz mx - vz mn)) /\
  (0 <= vx s /\ 0 <= vy s /\ 0 <= vz s) /\ ((vx s = 0 <-> vx mn = vx mx) /\ (vy s = 0 <-> vy mn = vy mx) /\ (vz s = 0 <-> vz mn = vz mx)).
Proof.
  intros M b MB [F1 [F2 [O [B1 B2]]]] mn mx s.
  assert (K : forall lo hi : F64, fin lo = true -> fin hi = true -> Rabs (B2R lo) <= M -> Rabs (B2R hi) <= M -> B2R lo <= B2R hi ->
    fin (nsub hi lo) = true /\ Rabs (B2R (nsub hi lo) - (B2R hi - B2R lo)) <= uro * (B2R hi - B2R lo) /\ 0 <= B2R (nsub hi lo) /\ (B2R (nsub hi lo) = 0 <-> B2R lo = B2R hi)).
  { intros lo hi FL FH BL BH L. apply Rabs_le_inv in BL, BH. pose proof big_pos. destruct (sub_R hi lo FH FL) as [F E]; [apply Rabs_le; lra|].
    pose proof (rnd_plus (B2R hi) (- B2R lo) (gen_B2R _)) as G. assert (GO : gen (- B2R lo)) by (apply generic_format_opp; apply gen_B2R). specialize (G GO).
    change (B2R hi + - B2R lo) with (B2R hi - B2R lo) in G. rewrite <- E, (Rabs_right (B2R hi - B2R lo)) in G by lra. split; auto. split; auto. pose proof G as G'. apply Rabs_le_inv in G.
    unfold uro in G. split; [lra|]. split; intros Q; [rewrite Q in G; lra|]. rewrite Q, Rminus_diag_eq in G by reflexivity. lra. }
  destruct F1 as [F11 [F12 F13]], F2 as [F21 [F22 F23]], O as [O1 [O2 O3]], B1 as [B11 [B12 B13]], B2 as [B21 [B22 B23]].
  destruct (K _ _ F11 F21 B11 B21 O1) as [X1 [X2 [X3 X4]]]. destruct (K _ _ F12 F22 B12 B22 O2) as [Y1 [Y2 [Y3 Y4]]]. destruct (K _ _ F13 F23 B13 B23 O3) as [Z1 [Z2 [Z3 Z4]]].
  unfold s, mn, mx, box_size, vsub, s_finv, rv. cbn [vx vy vz]. unfold s_fin. auto 12.
Qed.
Print Assumptions C115_size.
(** ** getCenter: exactly inside the box, and within 2 u M (plus the smallest double) of the exact centre *)
Theorem C115_centre : forall M (b : box F64), M <= big / 4 -> s_sane M (b_min b) (b_max b) -> let mn := rv (b_min b) in let mx := rv (b_max b) in
  s_finv (box_center b) /\ s_in_box mn mx (rv (box_center b)) /\
  s_close (3 * uro * M + eta) (rv (box_center b)) (V3 ((vx mn + vx mx) / 2) ((vy mn + vy mx) / 2) ((vz mn + vz mx) / 2)).
Proof.
  intros M b MB [F1 [F2 [O [B1 B2]]]] mn mx. destruct two_F as [_ E2].
  assert (K : forall lo hi : F64, fin lo = true -> fin hi = true -> Rabs (B2R lo) <= M -> Rabs (B2R hi) <= M -> B2R lo <= B2R hi ->
    fin (ndiv (nadd lo hi) n2) = true /\ B2R lo <= B2R (ndiv (nadd lo hi) n2) <= B2R hi /\ Rabs (B2R (ndiv (nadd lo hi) n2) - (B2R lo + B2R hi) / 2) <= 3 * uro * M + eta).
  { intros lo hi FL FH BL BH L. pose proof big_pos as BP. pose proof uro_pos as UP. pose proof (Rabs_plus_le _ _ _ _ BL BH) as BS. destruct (add_R lo hi FL FH ltac:(lra)) as [FS ES].
    assert (SB : 2 * B2R lo <= B2R (nadd lo hi) <= 2 * B2R hi) by (rewrite ES; split; [apply rnd_ge_gen|apply rnd_le_gen]; try apply gen_double; lra).
    apply Rabs_le_inv in BL as BL'. apply Rabs_le_inv in BH as BH'.
    assert (HB : Rabs (B2R (nadd lo hi) / B2R (n2 : F64)) <= big) by (rewrite E2; apply Rabs_le; lra).
    destruct (div_R (nadd lo hi) n2 FS ltac:(rewrite E2; discrR) HB) as [FC EC]. rewrite E2 in EC. split; auto. split.
    - rewrite EC. split; [apply rnd_ge_gen|apply rnd_le_gen]; try apply gen_B2R; lra.
    - pose proof (rnd_plus (B2R lo) (B2R hi) (gen_B2R _) (gen_B2R _)) as R1. rewrite <- ES in R1. apply uro_le in BS. apply Rabs_le_inv in R1.
      pose proof (rnd_err (B2R (nadd lo hi) / 2)) as R2. rewrite <- EC in R2. apply Rabs_le_inv in R2.
      assert (Q : Rabs (B2R (nadd lo hi) / 2) <= M) by (apply Rabs_le; lra). apply uro_le in Q. apply Rabs_le. lra. }
  destruct F1 as [F11 [F12 F13]], F2 as [F21 [F22 F23]], O as [O1 [O2 O3]], B1 as [B11 [B12 B13]], B2 as [B21 [B22 B23]].
  destruct (K _ _ F11 F21 B11 B21 O1) as [X1 [X2 X3]]. destruct (K _ _ F12 F22 B12 B22 O2) as [Y1 [Y2 Y3]]. destruct (K _ _ F13 F23 B13 B23 O3) as [Z1 [Z2 Z3]].
  unfold mn, mx, box_center, vdivs, vadd, s_finv, s_in_box, s_close, rv. cbn [vx vy vz]. unfold s_fin. auto 12.
Qed.
Print Assumptions C115_centre.
(** ** getMaxRadius: the larger of the lengths of the two corners, up to six rounding errors *)
Theorem C115_radius : forall b : box F64, s_finv (b_min b) -> s_finv (b_max b) -> s_rangev (b_min b) -> s_rangev (b_max b) ->
  let r := Rmax (sqrt (s_norm2 (rv (b_min b)))) (sqrt (s_norm2 (rv (b_max b)))) in
  s_fin (box_maxRadius b) /\ Rabs (B2R (box_maxRadius b) - r) <= 6 * uro * r.
Proof.
  intros b F1 F2 R1 R2 r. destruct (vlength_b _ F1 R1) as [G1 E1]. destruct (vlength_b _ F2 R2) as [G2 E2]. unfold box_maxRadius. destruct (max_F _ _ G1 G2) as [FM EM]. split; [exact FM|]. rewrite EM. unfold r.
  pose proof (sqrt_pos (s_norm2 (rv (b_min b)))). pose proof (sqrt_pos (s_norm2 (rv (b_max b)))). set (x := sqrt (s_norm2 (rv (b_min b)))) in *. set (y := sqrt (s_norm2 (rv (b_max b)))) in *.
  apply Rabs_le_inv in E1, E2. pose proof uro_pos. apply Rabs_le. unfold uro in *. unfold Rmax. destruct (Rle_dec (B2R (vlength (b_min b))) (B2R (vlength (b_max b)))), (Rle_dec x y); lra.
Qed.
Print Assumptions C115_radius.

(** ** The hypotheses are met: a box enclosing a second one, turned by a right angle and shifted, and that one enclosing itself *)
Definition ez : box F64 := box_make (V3 (nofZ (-1)) (nofZ (-2)) (nofZ (-3))) (V3 (nofZ 1) (nofZ 2) (nofZ 3)).
Definition ezR : box R := box_make (V3 (-1) (-2) (-3)) (V3 1 2 3).
Definition epose : trans3 F64 := T3 (M3 (nofZ 0) (nofZ (-1)) (nofZ 0) (nofZ 1) (nofZ 0) (nofZ 0) (nofZ 0) (nofZ 0) (nofZ 1)) (V3 (nofZ 10) (nofZ (-20)) (nofZ 5)).
Definition is_pt (v : vec3 F64) (a b c : Z) : bool := neqb (vx v) (nofZ a) && neqb (vy v) (nofZ b) && neqb (vz v) (nofZ c).
Definition ok100 (x : F64) : bool := is_finite x && nleb (nofZ (-100)) x && nleb x (nofZ 100).
Definition ok3 (v : vec3 F64) : bool := ok100 (vx v) && ok100 (vy v) && ok100 (vz v).
Lemma ok3_b : forall v, ok3 v = true -> s_bound 100 (rv v).
Proof.
  assert (K : forall x, ok100 x = true -> Rabs (B2R x) <= 100).
  { intros x H. unfold ok100 in H. rewrite !andb_true_iff in H. destruct H as [[F L] U]. destruct (ofZ_R (-100) ltac:(lia)) as [FA EA]. destruct (ofZ_R 100 ltac:(lia)) as [FB EB].
    rewrite leb_R in L, U by assumption. rewrite EA in L. rewrite EB in U. apply Rleb_true in L. apply Rleb_true in U. apply Rabs_le. lra. }
  intros v H. unfold ok3 in H. rewrite !andb_true_iff in H. destruct H as [[X Y] Z]. unfold s_bound, rv. cbn [vx vy vz]. auto.
Qed.
Example C115_nonvacuous :
  (1 * 100 <= big / 8 /\ 20 <= big / 8) /\ s_sane 100 (b_min ez) (b_max ez) /\ s_posed 1 20 epose /\
  s_chain 1 100 20 (box_enclose ez ez epose) (box_enclose ezR ezR (s_exact_pose epose)) /\
  (exists E, s_twin 1 100 20 E (box_enclose ez ez epose) (box_enclose ezR ezR (s_exact_pose epose))) /\
  (s_rangev (b_min ez) /\ s_rangev (b_max ez)) /\
  is_pt (b_min (box_enclose ez ez epose)) (-1) (-21) (-3) = true /\ is_pt (b_max (box_enclose ez ez epose)) 12 2 8 = true.
Proof.
  assert (BIG : 1 * 100 <= big / 8 /\ 20 <= big / 8) by (pose proof big_ge; lra).
  destruct (exv (-1) (-2) (-3) 3) as [FA [BA EA]]; try lia; try (apply Rabs_le; lra). destruct (exv 1 2 3 3) as [FB [BB EB]]; try lia; try (apply Rabs_le; lra).
  destruct (exv 10 (-20) 5 20) as [FO [BO EO]]; try lia; try (apply Rabs_le; lra).
  assert (W : forall B B' v, B <= B' -> s_bound B v -> s_bound B' v) by (intros B B' v L [? [? ?]]; unfold s_bound; lra).
  assert (S : s_sane 100 (V3 (nofZ (-1)) (nofZ (-2)) (nofZ (-3))) (V3 (nofZ 1) (nofZ 2) (nofZ 3))).
  { split; [exact FA|]. split; [exact FB|]. split; [rewrite EA, EB; unfold s_ordered; cbn [vx vy vz]; lra|]. split; eapply W; eauto; lra. }
  assert (P : s_posed 1 20 epose).
  { destruct (exv 0 (-1) 0 1) as [F1 [B1 _]]; try lia; try (apply Rabs_le; lra). destruct (exv 1 0 0 1) as [F2 [B2 _]]; try lia; try (apply Rabs_le; lra). destruct (exv 0 0 1 1) as [F3 [B3 _]]; try lia; try (apply Rabs_le; lra).
    unfold s_posed, epose. cbn [tR MathTypes.tt]. split; [split; [exact F1|split; [exact F2|exact F3]]|]. split; [exact FO|]. split; [split; [exact B1|split; [exact B2|exact B3]]|exact BO]. }
  assert (B1 : s_bound 100 (rv (b_min (box_enclose ez ez epose)))) by (apply ok3_b; vm_compute; reflexivity).
  assert (B2 : s_bound 100 (rv (b_max (box_enclose ez ez epose)))) by (apply ok3_b; vm_compute; reflexivity).
  assert (TZ : s_twin 1 100 20 0 ez ezR). { unfold ez, ezR. rewrite <- EA, <- EB. constructor. exact S. }
  split; [exact BIG|]. split; [exact S|]. split; [exact P|]. split; [|split; [|split; [|split; vm_compute; reflexivity]]].
  - unfold ezR. rewrite <- EA, <- EB. apply sc_next; auto. constructor. exact S.
  - eexists. apply tw_enclose; eauto.
  - unfold s_rangev, ez, box_make. cbn [b_min b_max]. rewrite EA, EB. unfold s_norm2, s_dot. cbn [vx vy vz].
    assert (L : bpow radix2 (-900) <= 1) by (change 1 with (bpow radix2 0); apply bpow_le; lia). assert (U : 1024 <= bpow radix2 900) by (change 1024 with (bpow radix2 10); apply bpow_le; lia). lra.
Qed.
