(** Normals and areas on doubles *)
From Coq Require Import ZArith NArith List Bool Lia Reals Lra Psatz.
From Flocq Require Import Core BinarySingleNaN.
From Verif Require Import Num MathTypes Outcome Mesh Spec SpecRound SpecTriF P_Tac P_Math P_Round P_Round2 P_Round3 P_OctF P_Query4 P_CompF1.
Import ListNotations.
Local Open Scope R_scope.
Local Notation fin := (is_finite (prec := 53) (emax := 1024)).

(** ** unit vectors of close vectors *)
Lemma norm_sq : forall v, s_norm v * s_norm v = s_norm2 v.
Proof. intros v. apply sqrt_sqrt, norm2_pos. Qed.
Lemma unit_close : forall (x y : vec3 R) D, 0 <= D -> s_close D x y -> 2 * D < s_norm y -> s_close (3 * D / s_norm y) (s_unit x) (s_unit y).
Proof.
  intros x y D D0 C L. pose proof (close_dist x y D D0 C) as DD. pose proof (norm_dist x y) as N1. pose proof (norm_dist y x) as N2. rewrite dist_sym in N2.
  assert (XP : 0 < s_norm x) by lra. assert (YP : 0 < s_norm y) by lra.
  pose proof (norm_comp x) as [X1 [X2 X3]]. unfold s_unit, s_norm2, s_close in *. fold (s_norm x) (s_norm y). cbn [vx vy vz].
  assert (G : forall a b, Rabs (a - b) <= D -> Rabs a <= s_norm x -> Rabs (a / s_norm x - b / s_norm y) <= 3 * D / s_norm y).
  { intros a b AB A. set (n := s_norm x) in *. set (k := s_norm y) in *.
    replace (a / n - b / k) with ((a - b + a / n * (k - n)) / k) by (field; lra).
    unfold Rdiv at 1. rewrite Rabs_mult, (Rabs_pos_eq (/ k)) by (left; apply Rinv_0_lt_compat; auto). apply Rmult_le_compat_r; [left; apply Rinv_0_lt_compat; auto|].
    eapply Rle_trans; [apply Rabs_triang|]. rewrite Rabs_mult.
    assert (Rabs (a / n) <= 1). { unfold Rdiv. rewrite Rabs_mult, (Rabs_pos_eq (/ n)) by (left; apply Rinv_0_lt_compat; auto). apply Rmult_le_reg_r with n; auto. rewrite Rmult_assoc, Rinv_l by lra. lra. }
    assert (Rabs (k - n) <= 7 / 4 * D) by (apply Rabs_le; lra). pose proof (Rabs_pos (a / n)). pose proof (Rabs_pos (k - n)).
    assert (Rabs (a / n) * Rabs (k - n) <= 1 * Rabs (k - n)) by (apply Rmult_le_compat_r; auto). lra. }
  destruct C as [C1 [C2 C3]]. auto.
Qed.

(** ** one component of the cross product of rounded differences *)
Lemma cross1_b : forall (p q r s : F64) P Q U V E W, fin p = true -> fin q = true -> fin r = true -> fin s = true ->
  Rabs (B2R p - P) <= uro * E -> Rabs (B2R r - U) <= uro * E -> Rabs (B2R q - Q) <= uro * W -> Rabs (B2R s - V) <= uro * W ->
  Rabs P <= E -> Rabs U <= E -> Rabs Q <= W -> Rabs V <= W -> 0 < E -> 0 < W -> bpow radix2 (-900) <= E * W <= bpow radix2 900 ->
  fin (nsub (nmul p q) (nmul r s)) = true /\ Rabs (B2R (nsub (nmul p q) (nmul r s)) - (P * Q - U * V)) <= 10 * uro * (E * W).
Proof.
  intros p q r s P Q U V E W FP FQ FR FS NP NR NQ NS BP BU BQ BV EP WP SC. pose proof uro_pos as U0.
  assert (US : uro <= / 1000000) by (unfold uro; lra).
  assert (SC' : scale (E * W)) by (split; [lra|]; eapply Rle_trans; [apply SC|]; apply bpow_le; lia).
  pose proof (scale_eta _ SC') as ET. pose proof (scale_big _ SC') as BG. pose proof (scale_pos _ SC') as EWP. pose proof eta_pos as ETP.
  assert (K : forall (x y : F64) X Y, fin x = true -> fin y = true -> Rabs (B2R x - X) <= uro * E -> Rabs (B2R y - Y) <= uro * W -> Rabs X <= E -> Rabs Y <= W ->
     fin (nmul x y) = true /\ Rabs (B2R (nmul x y) - X * Y) <= 31 / 10 * uro * (E * W) /\ Rabs (X * Y) <= E * W).
  { intros x y X Y FX FY NX NY BX BY. assert (XB : Rabs (B2R x) <= E + uro * E) by (eapply Rabs_close; eauto). assert (YB : Rabs (B2R y) <= W + uro * W) by (eapply Rabs_close; eauto).
    assert (XY : Rabs (X * Y) <= E * W) by (rewrite Rabs_mult; apply Rmult_le_compat; auto; apply Rabs_pos).
    assert (MM : (E + uro * E) * (W + uro * W) <= 101 / 100 * (E * W)). { replace ((E + uro * E) * (W + uro * W)) with ((1 + uro) * (1 + uro) * (E * W)) by ring. apply Rmult_le_compat_r; [lra|]. clear - US U0. nra. }
    destruct (mul_b x y _ _ FX FY XB YB) as [F H]; [lra|]. split; [exact F|]. split; [|exact XY].
    assert (D : Rabs (B2R x * B2R y - X * Y) <= 201 / 100 * uro * (E * W)).
    { replace (B2R x * B2R y - X * Y) with ((B2R x - X) * B2R y + X * (B2R y - Y)) by ring. eapply Rle_trans; [apply Rabs_triang|]. rewrite !Rabs_mult.
      assert (Rabs (B2R x - X) * Rabs (B2R y) <= uro * E * (W + uro * W)) by (apply Rmult_le_compat; auto; apply Rabs_pos).
      assert (Rabs X * Rabs (B2R y - Y) <= E * (uro * W)) by (apply Rmult_le_compat; auto; apply Rabs_pos).
      assert (uro * E * (W + uro * W) + E * (uro * W) = (2 + uro) * (uro * (E * W))) by ring. assert (0 <= uro * (E * W)) by (apply Rmult_le_pos; lra).
      assert ((2 + uro) * (uro * (E * W)) <= 201 / 100 * (uro * (E * W))) by (apply Rmult_le_compat_r; lra). lra. }
    replace (B2R (nmul x y) - X * Y) with ((B2R (nmul x y) - B2R x * B2R y) + (B2R x * B2R y - X * Y)) by ring. eapply Rle_trans; [apply Rabs_triang|].
    apply uro_le in MM. lra. }
  destruct (K p q P Q) as [F1 [H1 B1]]; auto. destruct (K r s U V) as [F2 [H2 B2]]; auto. clear K.
  assert (A1 := Rabs_close _ _ _ _ H1 B1). assert (A2 := Rabs_close _ _ _ _ H2 B2).
  assert (UEW : uro * (E * W) <= / 1000000 * (E * W)) by (apply Rmult_le_compat_r; lra).
  destruct (sub_b _ _ _ _ F1 F2 A1 A2) as [F H]; [lra|]. split; [exact F|].
  set (m1 := B2R (nmul p q)) in *. set (m2 := B2R (nmul r s)) in *. set (d := B2R (nsub (nmul p q) (nmul r s))) in *.
  replace (d - (P * Q - U * V)) with ((d - (m1 - m2)) + ((m1 - P * Q) - (m2 - U * V))) by ring. eapply Rle_trans; [apply Rabs_triang|].
  assert (Rabs ((m1 - P * Q) - (m2 - U * V)) <= 31 / 10 * uro * (E * W) + 31 / 10 * uro * (E * W)) by (unfold Rminus at 1; apply Rabs_plus_le; auto; rewrite Rabs_Ropp; auto).
  assert (EQ : uro * (E * W + 31 / 10 * uro * (E * W) + (E * W + 31 / 10 * uro * (E * W))) = 2 * uro * (E * W) + 62 / 10 * uro * (uro * (E * W))) by field. rewrite EQ in H.
  assert (62 / 10 * uro * (uro * (E * W)) <= / 100 * (uro * (E * W))) by (apply Rmult_le_compat_r; [apply Rmult_le_pos; lra|lra]). lra.
Qed.
(** a difference *)
Lemma diff_b : forall (p q : vec3 F64) E, s_finv p -> s_finv q -> s_bound E (s_diff (rv p) (rv q)) -> E <= big ->
  s_finv (vsub p q) /\ s_close (uro * E) (rv (vsub p q)) (s_diff (rv p) (rv q)).
Proof.
  intros p q E [P1 [P2 P3]] [Q1 [Q2 Q3]] [B1 [B2 B3]] EB. unfold s_diff, rv, vsub, s_close, s_finv, s_fin in *. cbn [vx vy vz] in *.
  assert (G : forall x y : F64, fin x = true -> fin y = true -> Rabs (B2R x - B2R y) <= E -> fin (nsub x y) = true /\ Rabs (B2R (nsub x y) - (B2R x - B2R y)) <= uro * E).
  { intros x y X Y B. destruct (sub_R x y X Y) as [F H]; [lra|]. split; auto. rewrite H. unfold Rminus in *. eapply Rle_trans; [apply rnd_plus; [apply gen_B2R|apply generic_format_opp, gen_B2R]|]. apply uro_le. exact B. }
  destruct (G _ _ P1 Q1 B1), (G _ _ P2 Q2 B2), (G _ _ P3 Q3 B3). auto.
Qed.
Lemma cross_b : forall (u w : vec3 F64) (U W : vec3 R) E M, s_finv u -> s_finv w -> s_close (uro * E) (rv u) U -> s_close (uro * M) (rv w) W ->
  s_bound E U -> s_bound M W -> 0 < E -> 0 < M -> bpow radix2 (-900) <= E * M <= bpow radix2 900 ->
  s_finv (vcross u w) /\ s_close (10 * uro * (E * M)) (rv (vcross u w)) (s_cp U W).
Proof.
  intros u w U W E M [U1 [U2 U3]] [W1 [W2 W3]] [C1 [C2 C3]] [D1 [D2 D3]] [A1 [A2 A3]] [B1 [B2 B3]] EP MP SC.
  unfold vcross, s_cp, rv, s_close, s_finv, s_fin in *. cbn [vx vy vz] in *.
  destruct (cross1_b (vy u) (vz w) (vz u) (vy w) (vy U) (vz W) (vz U) (vy W) E M) as [F1 H1]; auto.
  destruct (cross1_b (vz u) (vx w) (vx u) (vz w) (vz U) (vx W) (vx U) (vz W) E M) as [F2 H2]; auto.
  destruct (cross1_b (vx u) (vy w) (vy u) (vx w) (vx U) (vy W) (vy U) (vx W) E M) as [F3 H3]; auto.
Qed.
(** a rounded cross product is in the range in which lengths are accurate *)
Lemma cross_range : forall (x : vec3 F64) (y : vec3 R) k E W, s_close (10 * uro * (E * W)) (rv x) y -> k * (E * W) <= s_norm y -> / 1000000000 <= k ->
  s_norm y <= 4 * (E * W) -> 0 < E * W -> bpow radix2 (-400) <= E * W <= bpow radix2 400 -> s_rangev x.
Proof.
  intros x y k E W C N K NU P SC. pose proof uro_pos as U0. assert (D0 : 0 <= 10 * uro * (E * W)) by (apply Rmult_le_pos; lra).
  pose proof (close_dist _ _ _ D0 C) as DD. pose proof (norm_dist (rv x) y) as N1. pose proof (norm_dist y (rv x)) as N2. rewrite dist_sym in N2.
  assert (KE : / 1000000000 * (E * W) <= k * (E * W)) by (apply Rmult_le_compat_r; lra).
  assert (DU : 10 * uro * (E * W) <= / 100000000000 * (E * W)) by (apply Rmult_le_compat_r; [lra|unfold uro; lra]).
  assert (L : / 2000000000 * (E * W) <= s_norm (rv x)) by lra. assert (H : s_norm (rv x) <= 5 * (E * W)) by lra.
  unfold s_rangev. rewrite <- norm_sq. set (n := s_norm (rv x)) in *. set (s := E * W) in *. split.
  - apply Rle_trans with ((/ 2000000000 * bpow radix2 (-400)) * (/ 2000000000 * bpow radix2 (-400))).
    + replace (bpow radix2 (-900)) with (bpow radix2 (-50) * bpow radix2 (-50) * (bpow radix2 (-400) * bpow radix2 (-400))) by (rewrite <- !bpow_plus; reflexivity).
      replace (/ 2000000000 * bpow radix2 (-400) * (/ 2000000000 * bpow radix2 (-400))) with (/ 2000000000 * / 2000000000 * (bpow radix2 (-400) * bpow radix2 (-400))) by ring.
      apply Rmult_le_compat_r; [apply Rmult_le_pos; apply bpow_ge_0|]. change (bpow radix2 (-50)) with (/ IZR (2 ^ 50)). cbn. lra.
    + assert (0 <= / 2000000000 * bpow radix2 (-400)) by (apply Rmult_le_pos; [lra|apply bpow_ge_0]). assert (/ 2000000000 * bpow radix2 (-400) <= n) by (apply Rle_trans with (/ 2000000000 * s); lra). apply Rmult_le_compat; auto.
  - assert (n0 : 0 <= n) by apply sqrt_pos. apply Rle_trans with ((5 * bpow radix2 400) * (5 * bpow radix2 400)); [apply Rmult_le_compat; lra|].
    replace (5 * bpow radix2 400 * (5 * bpow radix2 400)) with (25 * (bpow radix2 400 * bpow radix2 400)) by ring. replace (bpow radix2 900) with (bpow radix2 100 * (bpow radix2 400 * bpow radix2 400)) by (rewrite <- !bpow_plus; reflexivity).
    apply Rmult_le_compat_r; [apply Rmult_le_pos; apply bpow_ge_0|].
    apply Rle_trans with (bpow radix2 5); [cbn; lra|apply bpow_le; lia].
Qed.
Lemma cp_norm : forall U W E M, s_bound E U -> s_bound M W -> 0 < E -> 0 < M -> s_norm (s_cp U W) <= 4 * (E * M).
Proof.
  intros U W E M [A1 [A2 A3]] [B1 [B2 B3]] EP MP. assert (P : 0 < E * M) by (apply Rmult_lt_0_compat; auto).
  assert (G : forall p q r s, Rabs p <= E -> Rabs q <= M -> Rabs r <= E -> Rabs s <= M -> Rabs (p * q - r * s) <= 2 * (E * M)).
  { intros p q r s H1 H2 H3 H4. unfold Rminus. assert (Rabs (p * q) <= E * M) by (rewrite Rabs_mult; apply Rmult_le_compat; auto; apply Rabs_pos). assert (Rabs (r * s) <= E * M) by (rewrite Rabs_mult; apply Rmult_le_compat; auto; apply Rabs_pos).
    eapply Rle_trans; [apply Rabs_triang|]. rewrite Rabs_Ropp. lra. }
  rewrite norm_zero. eapply Rle_trans; [apply (close_dist _ _ (2 * (E * M)))|]; [lra| |lra].
  unfold s_close, s_cp. cbn [vx vy vz]. rewrite !Rminus_0_r. auto.
Qed.
Lemma cp_swap : forall U W, s_cp W U = V3 (- vx (s_cp U W)) (- vy (s_cp U W)) (- vz (s_cp U W)).
Proof. intros. unfold s_cp. cbn [vx vy vz]. f_equal; ring. Qed.
Lemma norm_opp : forall v, s_norm (V3 (- vx v) (- vy v) (- vz v)) = s_norm v.
Proof. intros. unfold s_norm, s_dot. cbn [vx vy vz]. f_equal. ring. Qed.
Lemma norm_swap : forall U W, s_norm (s_cp W U) = s_norm (s_cp U W).
Proof. intros. rewrite cp_swap. apply norm_opp. Qed.
