(** * Ball test of boxes on doubles *)
From Coq Require Import ZArith Reals Lra Lia Bool.
From Flocq Require Import Core BinarySingleNaN Mult_error.
From Verif Require Import Num MathTypes Mesh Box Spec SpecRound SpecBallF P_Tac P_Math P_Round P_Round3 P_OctF P_InsideF.
Local Open Scope R_scope.
Local Notation fin := (is_finite (prec := 53) (emax := 1024)).
Definition M400 : R := bpow radix2 400.
Lemma M400_pos : 1 <= M400. Proof. change 1 with (bpow radix2 0). apply bpow_le. lia. Qed.
Lemma M400_big : M400 * M400 * 1000 <= big.
Proof.
  unfold M400, big. rewrite <- bpow_plus. apply Rle_trans with (bpow radix2 (400 + 400) * bpow radix2 10); [|rewrite <- bpow_plus; apply bpow_le; lia].
  apply Rmult_le_compat_l; [apply bpow_ge_0|cbn; lra].
Qed.
Lemma M400_big1 : M400 * 1000 <= big.
Proof. pose proof M400_big. pose proof M400_pos. nra. Qed.
(** ** the squared distance *)
Lemma sq_F : forall x c : F64, fin x = true -> fin c = true -> Rabs (B2R x) <= M400 -> Rabs (B2R c) <= M400 ->
  let d := nsub x c in let D := (B2R x - B2R c) * (B2R x - B2R c) in
  fin (nmul d d) = true /\ 0 <= B2R (nmul d d) /\ (1 - 4 * uro) * D - eta <= B2R (nmul d d) <= (1 + 4 * uro) * D + 2 * eta /\ D <= 4 * (M400 * M400).
Proof.
  intros x c FX FC BX BC d D. pose proof M400_pos as MP. pose proof M400_big as MB. pose proof M400_big1 as MB1. pose proof uro_pos as UP. pose proof eta_pos as EP.
  assert (S : Rabs (B2R x - B2R c) <= 2 * M400). { rewrite <- Rabs_Ropp in BC. pose proof (Rabs_plus_le _ _ _ _ BX BC). unfold Rminus. lra. }
  destruct (sub_R x c FX FC ltac:(lra)) as [FD ED]. fold d in FD, ED.
  assert (RE : Rabs (B2R d - (B2R x - B2R c)) <= uro * Rabs (B2R x - B2R c)).
  { rewrite ED. destruct (opp_R c FC) as [_ O]. pose proof (rnd_plus (B2R x) (B2R (nopp c)) (gen_B2R x) (gen_B2R _)) as RE. rewrite O in RE. exact RE. }
  set (t := B2R x - B2R c) in *. assert (D0 : 0 <= D) by (unfold D; nra). assert (DT : D = Rabs t * Rabs t) by (unfold D; rewrite <- Rabs_mult, Rabs_right; [reflexivity|nra]).
  assert (D4 : D <= 4 * (M400 * M400)) by (rewrite DT; pose proof (Rabs_pos t); nra).
  assert (SQ : (1 - uro) * (1 - uro) * D <= B2R d * B2R d <= (1 + uro) * (1 + uro) * D).
  { assert (A : Rabs (B2R d) * Rabs (B2R d) = B2R d * B2R d) by (rewrite <- Rabs_mult, Rabs_right; [reflexivity|nra]). rewrite <- A, DT.
    assert (L : (1 - uro) * Rabs t <= Rabs (B2R d) <= (1 + uro) * Rabs t).
    { pose proof (Rabs_triang (B2R d - t) t) as T1. replace (B2R d - t + t) with (B2R d) in T1 by ring. pose proof (Rabs_triang (- (B2R d - t)) (B2R d)) as T2. rewrite Rabs_Ropp in T2.
      replace (- (B2R d - t) + B2R d) with t in T2 by ring. lra. }
    pose proof (Rabs_pos t) as TP. assert (U1 : uro < 1) by (unfold uro; lra).
    split; [replace ((1 - uro) * (1 - uro) * (Rabs t * Rabs t)) with (((1 - uro) * Rabs t) * ((1 - uro) * Rabs t)) by ring|
            replace ((1 + uro) * (1 + uro) * (Rabs t * Rabs t)) with (((1 + uro) * Rabs t) * ((1 + uro) * Rabs t)) by ring];
    apply Rmult_le_compat; try apply L; try (apply Rmult_le_pos; lra); try apply Rabs_pos. }
  assert (SQ2 : (1 - 2 * uro) * D <= B2R d * B2R d <= (1 + 21 / 10 * uro) * D).
  { destruct SQ as [L U]. split; [eapply Rle_trans; [|exact L]|eapply Rle_trans; [exact U|]]; apply Rmult_le_compat_r; auto; unfold uro; lra. }
  destruct (sqr_b d (5 * (M400 * M400)) FD) as [FM EM]; [unfold uro in SQ2; nra|lra|].
  split; auto. split; [|split; [|auto]].
  - assert (M := mul_R d d FD FD). destruct M as [_ M]; [rewrite Rabs_right by nra; unfold uro in SQ2; nra|]. rewrite M. apply rnd_ge_gen; [apply gen_0|nra].
  - apply Rabs_le_inv in EM. clear - EM SQ2 D0 EP. unfold uro in *. lra.
Qed.
Lemma dist_F : forall p c : vec3 F64, s_finv p -> s_finv c -> s_bound M400 (rv p) -> s_bound M400 (rv c) ->
  let D := s_norm2 (s_diff (rv p) (rv c)) in let d := vlength2 (vsub p c) in
  fin d = true /\ (1 - 8 * uro) * D - 4 * eta <= B2R d <= (1 + 8 * uro) * D + 7 * eta.
Proof.
  intros p c [P1 [P2 P3]] [C1 [C2 C3]] [X1 [X2 X3]] [Y1 [Y2 Y3]] D d. cbn [rv vx vy vz] in *. pose proof M400_big as MB. pose proof uro_pos as UP. pose proof eta_pos as EP. pose proof M400_pos as MP.
  destruct (sq_F _ _ P1 C1 X1 Y1) as [FA [A0 [EA BA]]]. destruct (sq_F _ _ P2 C2 X2 Y2) as [FB [B0 [EB BB]]]. destruct (sq_F _ _ P3 C3 X3 Y3) as [FC [C0 [EC BC]]].
  cbv zeta in *. unfold d, vlength2, vsub. cbn [vx vy vz]. unfold D, s_norm2, s_dot, s_diff, rv. cbn [vx vy vz].
  set (ma := nmul (nsub (vx p) (vx c)) (nsub (vx p) (vx c))) in *. set (mb := nmul (nsub (vy p) (vy c)) (nsub (vy p) (vy c))) in *. set (mc := nmul (nsub (vz p) (vz c)) (nsub (vz p) (vz c))) in *.
  assert (DA : 0 <= (B2R (vx p) - B2R (vx c)) * (B2R (vx p) - B2R (vx c))) by apply Rle_0_sqr. assert (DB : 0 <= (B2R (vy p) - B2R (vy c)) * (B2R (vy p) - B2R (vy c))) by apply Rle_0_sqr.
  assert (DC : 0 <= (B2R (vz p) - B2R (vz c)) * (B2R (vz p) - B2R (vz c))) by apply Rle_0_sqr.
  set (a := (B2R (vx p) - B2R (vx c)) * (B2R (vx p) - B2R (vx c))) in *. set (b := (B2R (vy p) - B2R (vy c)) * (B2R (vy p) - B2R (vy c))) in *. set (e := (B2R (vz p) - B2R (vz c)) * (B2R (vz p) - B2R (vz c))) in *.
  assert (ES : eta <= M400 * M400). { apply Rle_trans with 1; [change 1 with (bpow radix2 0); apply bpow_le; lia|nra]. }
  assert (MM : 1 <= M400 * M400) by nra. set (K := M400 * M400) in *.
  destruct (add_R ma mb FA FB) as [F1 E1]. { rewrite Rabs_right by lra. unfold uro in *. lra. }
  pose proof (rnd_plus (B2R ma) (B2R mb) (gen_B2R _) (gen_B2R _)) as R1. rewrite <- E1, (Rabs_right (B2R ma + B2R mb)) in R1 by lra. apply Rabs_le_inv in R1.
  assert (G0 : 0 <= B2R (nadd ma mb)) by (unfold uro in R1; lra).
  destruct (add_R (nadd ma mb) mc F1 FC) as [F2 E2]. { rewrite Rabs_right by lra. unfold uro in *. lra. }
  pose proof (rnd_plus (B2R (nadd ma mb)) (B2R mc) (gen_B2R _) (gen_B2R _)) as R2. rewrite <- E2, (Rabs_right (B2R (nadd ma mb) + B2R mc)) in R2 by lra. apply Rabs_le_inv in R2.
  split; auto. clearbody a b e. clear - R1 R2 EA EB EC DA DB DC EP. unfold uro in *. lra.
Qed.
(** ** one axis of the clamped point *)
Definition cl (lo hi x c : F64) : F64 := if (nltb lo x && nltb x hi)%bool then x else if nltb c x then hi else lo.
Definition ctr (lo hi : F64) : F64 := ndiv (nadd lo hi) n2.
Lemma clamp_eq : forall (b : box F64) p,
  clamp_axis b p (clamp_axis b p (clamp_axis b p (box_center b) 0) 1) 2 =
  V3 (cl (vx (b_min b)) (vx (b_max b)) (vx p) (ctr (vx (b_min b)) (vx (b_max b)))) (cl (vy (b_min b)) (vy (b_max b)) (vy p) (ctr (vy (b_min b)) (vy (b_max b))))
     (cl (vz (b_min b)) (vz (b_max b)) (vz p) (ctr (vz (b_min b)) (vz (b_max b)))).
Proof.
  intros b p. unfold clamp_axis, box_center, vdivs, vadd, ctr, cl. cbn [vget vx vy vz].
  set (c1 := ndiv (nadd (vx (b_min b)) (vx (b_max b))) n2). set (c2 := ndiv (nadd (vy (b_min b)) (vy (b_max b))) n2). set (c3 := ndiv (nadd (vz (b_min b)) (vz (b_max b))) n2).
  clearbody c1 c2 c3.
  destruct (nltb (vx (b_min b)) (vx p) && nltb (vx p) (vx (b_max b)))%bool; cbn [vset vget vx vy vz];
  (destruct (nltb (vy (b_min b)) (vy p) && nltb (vy p) (vy (b_max b)))%bool; cbn [vset vget vx vy vz];
   (destruct (nltb (vz (b_min b)) (vz p) && nltb (vz p) (vz (b_max b)))%bool; cbn [vset vget vx vy vz];
    unfold bnd; repeat match goal with |- context [if nltb ?a ?q then b_max b else b_min b] => destruct (nltb a q) end; reflexivity)).
Qed.
Lemma two_F : fin (n2 : F64) = true /\ B2R (n2 : F64) = 2.
Proof. apply (ofZ_R 2). reflexivity. Qed.
Lemma gen_double : forall x : F64, gen (2 * B2R x).
Proof.
  intros x. pose proof (gen_B2R x) as G. unfold gen in *. replace (2 * B2R x) with (B2R x * bpow radix2 1) by (cbn; lra).
  change (SpecFloat.fexp 53 1024) with (FLT_exp (-1074) 53) in *. apply mult_bpow_pos_exact_FLT; auto. lia.
Qed.
Lemma ctr_F : forall lo hi : F64, fin lo = true -> fin hi = true -> Rabs (B2R lo) <= M400 -> Rabs (B2R hi) <= M400 -> B2R lo <= B2R hi ->
  fin (ctr lo hi) = true /\ B2R lo <= B2R (ctr lo hi) <= B2R hi /\ (8 * uro * (Rabs (B2R lo) + Rabs (B2R hi)) + 8 * eta < B2R hi - B2R lo -> B2R (ctr lo hi) < B2R hi).
Proof.
  intros lo hi FL FH BL BH L. pose proof M400_big1 as MB. pose proof M400_pos as MP. pose proof uro_pos as UP. pose proof eta_pos as EP. destruct two_F as [_ E2].
  pose proof (Rabs_plus_le _ _ _ _ BL BH) as BS. destruct (add_R lo hi FL FH ltac:(lra)) as [FS ES].
  assert (SB : 2 * B2R lo <= B2R (nadd lo hi) <= 2 * B2R hi) by (rewrite ES; split; [apply rnd_ge_gen|apply rnd_le_gen]; try apply gen_double; lra).
  apply Rabs_le_inv in BL as BL'. apply Rabs_le_inv in BH as BH'.
  assert (HB : Rabs (B2R (nadd lo hi) / B2R (n2 : F64)) <= big) by (rewrite E2; apply Rabs_le; lra).
  destruct (div_R (nadd lo hi) n2 FS ltac:(rewrite E2; discrR) HB) as [FC EC]. rewrite E2 in EC. unfold ctr. split; auto. split.
  - rewrite EC. split; [apply rnd_ge_gen|apply rnd_le_gen]; try apply gen_B2R; lra.
  - intros W. pose proof (rnd_plus (B2R lo) (B2R hi) (gen_B2R _) (gen_B2R _)) as R1. rewrite <- ES in R1. apply Rabs_le_inv in R1.
    pose proof (rnd_err (B2R (nadd lo hi) / 2)) as R2. rewrite <- EC in R2. apply Rabs_le_inv in R2.
    pose proof (Rabs_triang (B2R lo) (B2R hi)) as T. set (s := B2R lo + B2R hi) in *. set (ss := Rabs s) in *.
    assert (N : Rabs (B2R (nadd lo hi) / 2) <= ss).
    { unfold Rdiv. rewrite Rabs_mult, (Rabs_right (/ 2)) by lra. assert (Rabs (B2R (nadd lo hi)) <= 2 * ss); [|lra]. apply Rabs_le. pose proof (Rle_abs s) as Q1. pose proof (Rle_abs (- s)) as Q2. rewrite Rabs_Ropp in Q2. fold ss in Q1, Q2, R1. unfold uro in R1. lra. }
    apply uro_le in N. apply uro_le in T. set (al := Rabs (B2R lo)) in *. set (ah := Rabs (B2R hi)) in *. unfold s in *. clear - R1 R2 N T W UP EP. clearbody ss al ah. unfold uro in *. lra.
Qed.
Lemma sq_far : forall x c y, (c <= x /\ y <= c) \/ (x <= c /\ c <= y) -> (x - c) * (x - c) <= (x - y) * (x - y).
Proof. intros x c y [[A B]|[A B]]; [apply Rmult_le_compat; lra|]. replace ((x - c) * (x - c)) with ((c - x) * (c - x)) by ring. replace ((x - y) * (x - y)) with ((y - x) * (y - x)) by ring. apply Rmult_le_compat; lra. Qed.
Lemma cl_F : forall lo hi x : F64, fin lo = true -> fin hi = true -> fin x = true -> Rabs (B2R lo) <= M400 -> Rabs (B2R hi) <= M400 -> B2R lo <= B2R hi ->
  let c := cl lo hi x (ctr lo hi) in fin c = true /\ B2R lo <= B2R c <= B2R hi /\ Rabs (B2R c) <= M400 /\
  (s_axis_ok (B2R lo) (B2R hi) (B2R x) -> forall y, B2R lo <= y <= B2R hi -> (B2R x - B2R c) * (B2R x - B2R c) <= (B2R x - y) * (B2R x - y)).
Proof.
  intros lo hi x FL FH FX BL BH L c. destruct (ctr_F lo hi FL FH BL BH L) as [FC [[C1 C2] C3]].
  assert (K : fin c = true /\ B2R lo <= B2R c <= B2R hi /\ (s_axis_ok (B2R lo) (B2R hi) (B2R x) -> forall y, B2R lo <= y <= B2R hi -> (B2R x - B2R c) * (B2R x - B2R c) <= (B2R x - y) * (B2R x - y))).
  { unfold c, cl. rewrite (ltb_R lo x FL FX), (ltb_R x hi FX FH), (ltb_R _ x FC FX).
    destruct (Rlt_le_dec (B2R lo) (B2R x)) as [A|A]; [rewrite (proj2 (Rltb_true _ _) A)|rewrite (proj2 (Rltb_false _ _) A)]; cbn [andb].
    - destruct (Rlt_le_dec (B2R x) (B2R hi)) as [B|B]; [rewrite (proj2 (Rltb_true _ _) B)|rewrite (proj2 (Rltb_false _ _) B)].
      + split; auto. split; [lra|]. intros _ y _. pose proof (Rle_0_sqr (B2R x - y)) as Q. unfold Rsqr in Q. lra.
      + destruct (Rlt_le_dec (B2R (ctr lo hi)) (B2R x)) as [Q|Q]; [rewrite (proj2 (Rltb_true _ _) Q)|rewrite (proj2 (Rltb_false _ _) Q)].
        * split; auto. split; [lra|]. intros _ y Y. apply sq_far. lra.
        * split; auto. split; [lra|]. intros [W|[W|W]] y Y; [specialize (C3 W); lra|lra|exfalso; apply W; lra].
    - rewrite (proj2 (Rltb_false (B2R (ctr lo hi)) (B2R x))) by lra. split; auto. split; [lra|]. intros _ y Y. apply sq_far. lra. }
  destruct K as [K1 [K2 K3]]. split; auto. split; auto. split; auto. apply Rabs_le_inv in BL. apply Rabs_le_inv in BH. apply Rabs_le. lra.
Qed.
