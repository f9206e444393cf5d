(** * Distance of a segment to the sensor on doubles *)
From Coq Require Import ZArith NArith List Bool Lia Reals Lra Psatz.
From Flocq Require Import Core BinarySingleNaN.
From Verif Require Import Num MathTypes Outcome Spec SpecRound Laser SpecLaser Libm SpecLibm SpecLaserF SpecRangeF
  P_Tac P_Math P_Round P_OctF P_RayF P_QuatF P_Libm P_HeightF P_LaserF P_LaserF3.
Import ListNotations.
Local Open Scope R_scope.
Local Notation fin := (is_finite (prec := 53) (emax := 1024)).

Lemma big30 : forall x, Rabs x <= 10 ^ 29 -> Rabs x <= big.
Proof. intros x H. eapply Rle_trans; [exact H|]. apply Rle_trans with (10 ^ 30); [lra|apply big_ge]. Qed.
(** a square, up to A (at least 1e-7) *)
Lemma sq_near : forall (x : F64) X e A, near e x X -> Rabs X <= A -> / 10000000 <= A <= 100000000 -> e <= 100 * uro * A -> near (201 / 100 * e * A + 101 / 100 * uro * (A * A)) (nmul x x) (X * X).
Proof.
  intros x X e A [F H] B [A0 A1] EB. pose proof uro_pos as UP. pose proof u_small as US. pose proof eta_tiny as ET.
  assert (E0 : 0 <= e) by (pose proof (Rabs_pos (B2R x - X)); lra). assert (UA : uro * A <= / 1000000000000 * A) by (apply Rmult_le_compat_r; lra).
  pose proof (Rabs_close _ _ _ _ H B) as BX. set (y := B2R x) in *. assert (AA : 0 < A * A) by (apply Rmult_lt_0_compat; lra). assert (EA : 0 <= e * A) by (apply Rmult_le_pos; lra).
  assert (EA2 : e * A <= / 1000000000 * (A * A)). { replace (/ 1000000000 * (A * A)) with (/ 1000000000 * A * A) by ring. apply Rmult_le_compat_r; lra. }
  assert (D : Rabs (y * y - X * X) <= 2001 / 1000 * (e * A)).
  { replace (y * y - X * X) with ((y - X) * (y + X)) by ring. eapply Rle_trans; [apply Rabs_mult_le; [exact H|apply Rabs_plus_le; [exact BX|exact B]]|]. assert (e * e <= / 1000 * (e * A)) by (replace (/ 1000 * (e * A)) with (e * (/ 1000 * A)) by ring; apply Rmult_le_compat_l; lra). lra. }
  assert (XX : Rabs (X * X) <= A * A) by (apply Rabs_mult_le; auto). pose proof (Rabs_close _ _ _ _ D XX) as YY.
  assert (A16 : A * A <= 10000000000000000) by (apply Rle_trans with (100000000 * 100000000); [apply Rmult_le_compat; lra|lra]).
  destruct (mul_R x x F F) as [FM EM]. { fold y. apply big30. lra. }
  split; [exact FM|]. fold y in EM. pose proof (rnd_err (y * y)) as G. rewrite <- EM in G. pose proof (uro_le _ _ YY) as U2.
  assert (A14 : / 100000000000000 <= A * A) by (apply Rle_trans with (/ 10000000 * / 10000000); [lra|apply Rmult_le_compat; lra]).
  pose proof (uro_le _ _ A14) as U3. assert (U4 : uro * (e * A) <= / 1000000000000 * (e * A)) by (apply Rmult_le_compat_r; lra).
  replace (B2R (nmul x x) - X * X) with ((B2R (nmul x x) - y * y) + (y * y - X * X)) by ring. eapply Rle_trans; [apply Rabs_triang|]. lra.
Qed.
Lemma sum_near : forall (x y : F64) X Y e d B, near e x X -> near d y Y -> Rabs (X + Y) <= B -> B + e + d <= 10 ^ 29 -> near (e + d + uro * (B + e + d)) (nadd x y) (X + Y).
Proof.
  intros x y X Y e d B [FX HX] [FY HY] HB HL.
  assert (D : Rabs (B2R x + B2R y - (X + Y)) <= e + d) by (replace (B2R x + B2R y - (X + Y)) with ((B2R x - X) + (B2R y - Y)) by ring; apply Rabs_plus_le; auto).
  pose proof (Rabs_close _ _ _ _ D HB) as S. destruct (add_R x y FX FY) as [F E]; [apply big30; lra|]. split; [exact F|].
  pose proof (rnd_plus (B2R x) (B2R y) (gen_B2R _) (gen_B2R _)) as G. rewrite <- E in G. pose proof (uro_le _ _ S) as U.
  replace (B2R (nadd x y) - (X + Y)) with ((B2R (nadd x y) - (B2R x + B2R y)) + (B2R x + B2R y - (X + Y))) by ring. eapply Rle_trans; [apply Rabs_triang|]. lra.
Qed.
(** squared length of a 2D vector *)
Lemma len2_near : forall (v : vec2 F64) (w : vec2 R) e A, near e (v2x v) (v2x w) -> near e (v2y v) (v2y w) -> s_bound2 A w -> / 10000000 <= A <= 100000000 -> e <= 100 * uro * A ->
  near (405 / 100 * e * A + 405 / 100 * uro * (A * A)) (v2length2 v) (s_len2 w).
Proof.
  intros v w e A NX NY [BX BY] AB EB. pose proof uro_pos as UP. pose proof u_small as US. pose proof (sq_near _ _ _ _ NX BX AB EB) as SX. pose proof (sq_near _ _ _ _ NY BY AB EB) as SY.
  assert (E0 : 0 <= e) by (destruct NX as [_ H]; pose proof (Rabs_pos (B2R (v2x v) - v2x w)); lra). destruct AB as [A0 A1].
  assert (AA : 0 < A * A) by (apply Rmult_lt_0_compat; lra). assert (EA : 0 <= e * A) by (apply Rmult_le_pos; lra). assert (UA : uro * A <= / 1000000000000 * A) by (apply Rmult_le_compat_r; lra).
  assert (EA2 : e * A <= / 1000000000 * (A * A)). { replace (/ 1000000000 * (A * A)) with (/ 1000000000 * A * A) by ring. apply Rmult_le_compat_r; lra. }
  assert (A16 : A * A <= 10000000000000000) by (apply Rle_trans with (100000000 * 100000000); [apply Rmult_le_compat; lra|lra]).
  assert (UAA : 0 < uro * (A * A) <= / 1000000000000 * (A * A)) by (split; [apply Rmult_lt_0_compat; auto|apply Rmult_le_compat_r; lra]).
  set (d := 201 / 100 * e * A + 101 / 100 * uro * (A * A)) in *. assert (D1 : d <= / 1000 * (A * A)) by (unfold d; lra).
  assert (DU : uro * (2 * (A * A) + d + d) <= uro * (201 / 100 * (A * A))) by (apply uro_le; lra).
  eapply near_le; [apply (sum_near _ _ _ _ d d (2 * (A * A)) SX SY)|unfold d in *; lra].
  - eapply Rle_trans; [apply Rabs_plus_le; apply Rabs_mult_le; eassumption|]. lra.
  - lra.
Qed.
(** the clamped parameter is second best at most by the square of the error of the parameter *)
Lemma clamp_best : forall L t t' d t0 tau, 0 <= L -> Rabs (t' - t) <= d -> 0 <= t0 <= 1 -> (t' < 0 /\ tau = 0) \/ (1 < t' /\ tau = 1) \/ (0 <= t' <= 1 /\ tau = t') ->
  L * ((tau - t) * (tau - t)) <= L * ((t0 - t) * (t0 - t)) + L * (d * d).
Proof.
  intros L t t' d t0 tau L0 H T0 C. rewrite <- Rmult_plus_distr_l. apply Rmult_le_compat_l; auto. apply Rabs_le_inv in H. assert (D0 : 0 <= d) by lra.
  pose proof (Rle_0_sqr (t0 - t)) as Q. pose proof (Rle_0_sqr d) as Q2. unfold Rsqr in Q, Q2.
  assert (SQ : forall x, - d <= x <= d -> x * x <= d * d) by (intros x X; nra).
  destruct C as [[C ->]|[[C ->]|[C ->]]].
  - destruct (Rle_lt_dec t 0); [|pose proof (SQ (0 - t) ltac:(lra)); lra]. assert (0 <= t0 * (t0 - 2 * t)) by (apply Rmult_le_pos; lra). lra.
  - destruct (Rle_lt_dec 1 t); [|pose proof (SQ (1 - t) ltac:(lra)); lra]. assert (0 <= (1 - t0) * ((t - 1) + (t - t0))) by (apply Rmult_le_pos; lra). lra.
  - pose proof (SQ (t' - t) ltac:(lra)). lra.
Qed.
Lemma along_sq : forall p q t, let S := s_from p q in s_len2 S <> 0 -> let c := - (v2x p * v2x S + v2y p * v2y S) / s_len2 S in
  s_len2 (s_along p q t) = s_len2 S * ((t - c) * (t - c)) + (s_len2 p - s_len2 S * (c * c)).
Proof. intros [a b] [x y] t S NZ c. unfold c, S, s_along, s_len2, s_from in *. cbn [v2x v2y] in *. field. exact NZ. Qed.
(** ** the computed parameter of the nearest point *)
Section Dist.
  Context (p q : vec2 F64) (M len : R).
  Context (FP : s_finv2 p) (FQ : s_finv2 q) (BP : s_bound2 M (s_r2 p)) (BQ : s_bound2 M (s_r2 q)) (MB : 1 <= M <= 1000000).
  Context (LL : len * len = s_len2 (s_from (s_r2 p) (s_r2 q))) (LB : / 1000000 <= len).
  Let S := s_from (s_r2 p) (s_r2 q).
  Let s := v2sub q p.
  Lemma len_up : len <= 3 * M.
  Proof.
    destruct BP as [B1 B2], BQ as [B3 B4]. cbn [s_r2 v2x v2y] in *. apply Rabs_le_inv in B1, B2, B3, B4. apply Rnot_lt_le. intros H.
    assert (9 * (M * M) < len * len) by nra. rewrite LL in *. unfold s_len2, s_from, s_r2 in *. cbn [v2x v2y] in *.
    set (x := B2R (v2x q) - B2R (v2x p)) in *. set (y := B2R (v2y q) - B2R (v2y p)) in *. assert (x * x <= 4 * (M * M)) by (assert (-2 * M <= x <= 2 * M) by (unfold x; lra); nra).
    assert (y * y <= 4 * (M * M)) by (assert (-2 * M <= y <= 2 * M) by (unfold y; lra); nra). nra.
  Qed.
  Lemma S_comp : Rabs (v2x S) <= len /\ Rabs (v2y S) <= len.
  Proof. apply len_comp; [lra|exact LL]. Qed.
  Lemma s_comp : near (uro * len) (v2x s) (v2x S) /\ near (uro * len) (v2y s) (v2y S).
  Proof.
    destruct S_comp as [SX SY]. pose proof len_up as LU. destruct FP as [P1 P2], FQ as [Q1 Q2]. split.
    - eapply near_le; [apply (rel_sub (v2x q) (v2x p)); auto; change (B2R (v2x q) - B2R (v2x p)) with (v2x S); lra|]. apply uro_le; auto.
    - eapply near_le; [apply (rel_sub (v2y q) (v2y p)); auto; change (B2R (v2y q) - B2R (v2y p)) with (v2y S); lra|]. apply uro_le; auto.
  Qed.
  Lemma p_near : near 0 (v2x p) (v2x (s_r2 p)) /\ near 0 (v2y p) (v2y (s_r2 p)) /\ near 0 (v2x q) (v2x (s_r2 q)) /\ near 0 (v2y q) (v2y (s_r2 q)).
  Proof. destruct FP as [P1 P2], FQ as [Q1 Q2]. assert (K : forall x : F64, s_fin x -> near 0 x (B2R x)) by (intros x F; split; [exact F|unfold Rminus; rewrite Rplus_opp_r, Rabs_R0; lra]). repeat split; try (apply K; assumption). Qed.
  Let c := - (v2x (s_r2 p) * v2x S + v2y (s_r2 p) * v2y S) / s_len2 S.
  Lemma t_near : near (26 * uro * M / len) (ndiv (v2dot p s) (nopp (v2length2 s))) c.
  Proof.
    pose proof uro_pos as UP. pose proof u_small as US. pose proof eta_tiny as ET. pose proof len_up as LU. destruct S_comp as [SX SY]. destruct s_comp as [NX NY]. destruct p_near as [PX [PY _]]. destruct BP as [B1 B2].
    assert (LP : 0 < len) by lra. assert (LL' : len * len = s_len2 S) by exact LL. set (LN := len * len) in *. assert (LNP : 0 < LN) by (unfold LN; nra).
    destruct (prod_near _ _ _ _ 0 M len PX NX B1 SX) as [D1 _]; auto; try lra. destruct (prod_near _ _ _ _ 0 M len PY NY B2 SY) as [D2 _]; auto; try lra.
    set (X := v2x (s_r2 p) * v2x S + v2y (s_r2 p) * v2y S) in *.
    assert (ML : 0 < M * len) by (apply Rmult_lt_0_compat; lra). assert (UML : 0 < uro * (M * len) <= / 1000000000000 * (M * len)) by (split; [apply Rmult_lt_0_compat; auto|apply Rmult_le_compat_r; lra]).
    assert (MLU : M * len <= 10 ^ 20) by nra.
    assert (XB : Rabs X <= 2 * (M * len)). { unfold X. eapply Rle_trans; [apply Rabs_plus_le; apply Rabs_mult_le; eassumption|]. lra. }
    assert (DOT : near (7 * uro * (M * len)) (v2dot p s) X).
    { eapply near_le; [apply (sum_near _ _ _ _ _ _ (2 * (M * len)) D1 D2 XB)|].
      - replace ((102 / 100 * 0 + 21 / 10 * uro * M) * len) with (21 / 10 * (uro * (M * len))) by field. lra.
      - replace ((102 / 100 * 0 + 21 / 10 * uro * M) * len) with (21 / 10 * (uro * (M * len))) by field.
        assert (uro * (2 * (M * len) + 21 / 10 * (uro * (M * len)) + 21 / 10 * (uro * (M * len))) <= uro * (21 / 10 * (M * len))) by (apply uro_le; lra). lra. }
    assert (LEN : near (82 / 10 * uro * LN) (v2length2 s) LN).
    { assert (ULN0 : 0 < uro * (len * len)) by (apply Rmult_lt_0_compat; auto). apply near_eq with (s_len2 S); [|symmetry; exact LL']. eapply near_le; [apply (len2_near s S (uro * len) len NX NY (conj SX SY)); [lra|]|unfold LN; lra]. assert (0 < uro * len) by (apply Rmult_lt_0_compat; auto). lra. }
    destruct DOT as [FD HD], LEN as [FL HL]. destruct (opp_R _ FL) as [FO EO]. set (dt := B2R (v2dot p s)) in *. set (ln := B2R (v2length2 s)) in *.
    apply Rabs_le_inv in HL. assert (ULN : 0 < uro * LN <= / 1000000000000 * LN) by (split; [apply Rmult_lt_0_compat; auto|apply Rmult_le_compat_r; lra]).
    assert (ln1 : 999 / 1000 * LN <= ln) by lra. assert (LNQ : 0 < ln) by lra.
    (* exact quotient of the computed numbers *)
    set (k := M / len). assert (KP : 0 < k) by (apply Rmult_lt_0_compat; [lra|apply Rinv_0_lt_compat; auto]). assert (KL : k * LN = M * len) by (unfold k, LN; field; lra).
    assert (UK : 0 < uro * k <= / 1000000000000 * k) by (split; [apply Rmult_lt_0_compat; auto|apply Rmult_le_compat_r; lra]).
    assert (DV : forall x b, Rabs x <= b * (M * len) -> 0 <= b -> Rabs (x / ln) <= 1002 / 1000 * b * k).
    { intros x b HX B0. unfold Rdiv. rewrite Rabs_mult, Rabs_inv, (Rabs_pos_eq ln) by lra. apply Rmult_le_reg_r with ln; auto. rewrite Rmult_assoc, Rinv_l, Rmult_1_r by lra. eapply Rle_trans; [exact HX|].
      rewrite <- KL. replace (b * (k * LN)) with (b * k * LN) by ring. apply Rle_trans with (b * k * (1002 / 1000 * ln)); [apply Rmult_le_compat_l; [apply Rmult_le_pos; lra|lra]|right; field]. }
    assert (CV : c = - X / LN) by (unfold c; rewrite <- LL'; reflexivity).
    assert (XL : Rabs (- X / LN) <= 2 * k).
    { unfold Rdiv. rewrite Rabs_mult, Rabs_Ropp, Rabs_inv, (Rabs_pos_eq LN) by lra. apply Rmult_le_reg_r with LN; auto. rewrite Rmult_assoc, Rinv_l, Rmult_1_r by lra. rewrite Rmult_assoc, KL. exact XB. }
    assert (Q : Rabs (dt / - ln - c) <= 235 / 10 * uro * k).
    { rewrite CV. replace (dt / - ln - - X / LN) with (- ((dt - X) / ln) + (- X / LN) * ((LN - ln) / ln)) by (field; lra).
      assert (T1 : Rabs (- ((dt - X) / ln)) <= 1002 / 1000 * (7 * uro) * k). { rewrite Rabs_Ropp. apply DV; [|lra]. eapply Rle_trans; [exact HD|]. lra. }
      assert (T2 : Rabs ((LN - ln) / ln) <= 822 / 100 * uro).
      { unfold Rdiv. rewrite Rabs_mult, Rabs_inv, (Rabs_pos_eq ln) by lra. apply Rmult_le_reg_r with ln; auto. rewrite Rmult_assoc, Rinv_l, Rmult_1_r by lra. apply Rle_trans with (82 / 10 * uro * LN); [apply Rabs_le; lra|].
        assert (uro * (999 / 1000 * LN) <= uro * ln) by (apply Rmult_le_compat_l; lra). lra. }
      eapply Rle_trans; [apply Rabs_plus_le; [exact T1|apply Rabs_mult_le; [exact XL|exact T2]]|]. lra. }
    rewrite CV in Q. pose proof (Rabs_close _ _ _ _ Q XL) as QB.
    assert (KU : k <= 10 ^ 13). { apply Rmult_le_reg_r with LN; auto. rewrite KL. unfold LN. apply Rle_trans with (1000000 * len); [apply Rmult_le_compat_r; lra|]. replace (10 ^ 13 * (len * len)) with (len * (10 ^ 13 * len)) by ring. rewrite (Rmult_comm 1000000). apply Rmult_le_compat_l; lra. }
    assert (KLo : / 3 <= k). { unfold k. apply Rmult_le_reg_r with len; auto. unfold Rdiv. rewrite Rmult_assoc, Rinv_l by lra. lra. }
    destruct (div_R (v2dot p s) (nopp (v2length2 s)) FD) as [FV EV]. { rewrite EO. fold ln. lra. } { rewrite EO. fold dt ln. apply big30. lra. }
    split; [exact FV|]. rewrite EO in EV. fold dt ln in EV. pose proof (rnd_err (dt / - ln)) as G. rewrite <- EV in G. pose proof (uro_le _ _ QB) as U2. rewrite CV.
    replace (26 * uro * M / len) with (26 * (uro * k)) by (unfold k; field; lra).
    replace (B2R (ndiv (v2dot p s) (nopp (v2length2 s))) - - X / LN) with ((B2R (ndiv (v2dot p s) (nopp (v2length2 s))) - dt / - ln) + (dt / - ln - - X / LN)) by ring. eapply Rle_trans; [apply Rabs_triang|].
    pose proof (uro_le _ _ KLo) as U3. assert (uro * (235 / 10 * uro * k) <= / 1000000000000 * (235 / 10 * uro * k)) by (apply Rmult_le_compat_r; lra). lra.
  Qed.
  (** ** the computed squared distance *)
  Lemma along_bound : forall t, 0 <= t <= 1 -> s_bound2 M (s_along (s_r2 p) (s_r2 q) t).
  Proof.
    intros t T. destruct BP as [B1 B2], BQ as [B3 B4]. unfold s_along, s_bound2. cbn [v2x v2y].
    assert (K : forall a b, Rabs a <= M -> Rabs b <= M -> Rabs (a + t * (b - a)) <= M).
    { intros a b A B. replace (a + t * (b - a)) with (a * (1 - t) + b * t) by ring. eapply Rle_trans; [apply Rabs_triang|]. rewrite !Rabs_mult, (Rabs_pos_eq t), (Rabs_pos_eq (1 - t)) by lra.
      assert (Rabs a * (1 - t) <= M * (1 - t)) by (apply Rmult_le_compat_r; lra). assert (Rabs b * t <= M * t) by (apply Rmult_le_compat_r; lra). lra. }
    split; apply K; assumption.
  Qed.
  Lemma mid_near : forall t : F64, fin t = true -> 0 <= B2R t <= 1 -> near (37 * uro * (M * M)) (v2length2 (v2add p (v2scale s t))) (s_len2 (s_along (s_r2 p) (s_r2 q) (B2R t))).
  Proof.
    intros t FT TB. pose proof uro_pos as UP. pose proof u_small as US. pose proof eta_tiny as ET. pose proof len_up as LU. destruct S_comp as [SX SY]. destruct s_comp as [NX NY]. destruct p_near as [PX [PY _]].
    assert (ULn : 0 < uro * len <= / 1000000000000 * len) by (split; [apply Rmult_lt_0_compat; lra|apply Rmult_le_compat_r; lra]).
    assert (UM : 0 < uro * M <= / 1000000000000 * M) by (split; [apply Rmult_lt_0_compat; lra|apply Rmult_le_compat_r; lra]).
    assert (ULM : uro * len <= 3 * (uro * M)) by (pose proof (uro_le _ _ LU); lra).
    assert (ML : forall (x : F64) X, near (uro * len) x X -> Rabs X <= len -> near (21 / 10 * (uro * len)) (nmul x t) (B2R t * X)).
    { intros x X [FX HX] BX. pose proof (Rabs_close _ _ _ _ HX BX) as XB.
      assert (AT : forall z b, Rabs z <= b -> Rabs (z * B2R t) <= b). { intros z b Z. rewrite Rabs_mult, (Rabs_pos_eq (B2R t)) by lra. assert (0 <= b) by (pose proof (Rabs_pos z); lra). assert (Rabs z * B2R t <= b * 1) by (apply Rmult_le_compat; try lra; apply Rabs_pos). lra. }
      pose proof (AT _ _ XB) as XT. destruct (mul_R x t FX FT) as [F E]. { apply big30. lra. }
      split; [exact F|]. pose proof (rnd_err (B2R x * B2R t)) as G. rewrite <- E in G. pose proof (uro_le _ _ XT) as U2. pose proof (AT _ _ HX) as D.
      replace (B2R (nmul x t) - B2R t * X) with ((B2R (nmul x t) - B2R x * B2R t) + (B2R x - X) * B2R t) by ring. eapply Rle_trans; [apply Rabs_triang|].
      pose proof (uro_le _ _ LB) as U3. assert (uro * (uro * len) <= / 1000 * (uro * len)) by (apply Rmult_le_compat_r; lra). lra. }
    destruct (along_bound (B2R t) TB) as [WX WY]. set (w := s_along (s_r2 p) (s_r2 q) (B2R t)) in *.
    assert (CX : near (8 * (uro * M)) (v2x (v2add p (v2scale s t))) (v2x w)).
    { eapply near_le; [apply (sum_near (v2x p) (nmul (v2x s) t) (v2x (s_r2 p)) (B2R t * v2x S) 0 (21 / 10 * (uro * len)) M PX (ML _ _ NX SX) WX); lra|].
      assert (uro * (M + 0 + 21 / 10 * (uro * len)) <= uro * (101 / 100 * M)) by (apply uro_le; lra). lra. }
    assert (CY : near (8 * (uro * M)) (v2y (v2add p (v2scale s t))) (v2y w)).
    { eapply near_le; [apply (sum_near (v2y p) (nmul (v2y s) t) (v2y (s_r2 p)) (B2R t * v2y S) 0 (21 / 10 * (uro * len)) M PY (ML _ _ NY SY) WY); lra|].
      assert (uro * (M + 0 + 21 / 10 * (uro * len)) <= uro * (101 / 100 * M)) by (apply uro_le; lra). lra. }
    eapply near_le; [apply (len2_near _ w (8 * (uro * M)) M CX CY (conj WX WY)); lra|]. assert (0 < uro * (M * M)) by (apply Rmult_lt_0_compat; [auto|apply Rmult_lt_0_compat; lra]). lra.
  Qed.
  Lemma dist2_F : forall D, s_near2 (s_r2 p) (s_r2 q) D -> near (38 * uro * (M * M)) (line_dist2 p q s (v2length2 s)) D.
  Proof.
    intros D [[t0 [T0 E0]] MIN]. pose proof uro_pos as UP. pose proof u_small as US. pose proof t_near as TN. destruct p_near as [PX [PY [QX QY]]]. unfold line_dist2. set (t := ndiv (v2dot p s) (nopp (v2length2 s))) in *.
    destruct TN as [FT HT]. destruct zero_R as [FZ EZ]. destruct (ofZ_R 1 eq_refl) as [F1 E1]. change (nofZ 1) with (n1 : F64) in F1, E1.
    rewrite (ltb_R t n0 FT FZ), (ltb_R n1 t F1 FT), EZ, E1.
    assert (LNZ : s_len2 S <> 0) by (unfold S; rewrite <- LL; nra).
    assert (MMP : 0 < uro * (M * M)) by (apply Rmult_lt_0_compat; [auto|apply Rmult_lt_0_compat; lra]).
    assert (KEY : forall x tau, (B2R t < 0 /\ tau = 0) \/ (1 < B2R t /\ tau = 1) \/ (0 <= B2R t <= 1 /\ tau = B2R t) -> near (37 * uro * (M * M)) x (s_len2 (s_along (s_r2 p) (s_r2 q) tau)) -> near (38 * uro * (M * M)) x D).
    { intros x tau CS [FX HX]. split; [exact FX|]. assert (TB : 0 <= tau <= 1) by lra. pose proof (MIN tau TB) as LO.
      assert (UPP : s_len2 (s_along (s_r2 p) (s_r2 q) tau) <= D + uro * (M * M)).
      { rewrite E0. pose proof (along_sq (s_r2 p) (s_r2 q)) as AS. cbv zeta in AS. rewrite !AS by exact LNZ. fold S. fold c.
        assert (LN0 : 0 <= s_len2 S) by (unfold S; rewrite <- LL; nra).
        pose proof (clamp_best (s_len2 S) c (B2R t) _ t0 tau LN0 HT T0 CS) as CB.
        assert (LD : s_len2 S * (26 * uro * M / len * (26 * uro * M / len)) <= uro * (M * M)).
        { unfold S. rewrite <- LL. replace (len * len * (26 * uro * M / len * (26 * uro * M / len))) with (676 * uro * (uro * (M * M))) by (field; lra).
          assert (676 * uro * (uro * (M * M)) <= 1 * (uro * (M * M))) by (apply Rmult_le_compat_r; lra). lra. }
        lra. }
      apply Rabs_le_inv in HX. apply Rabs_le. lra. }
    unfold Rltb. destruct (Rlt_dec (B2R t) 0) as [A|A]; [|destruct (Rlt_dec 1 (B2R t)) as [B|B]].
    - apply (KEY _ 0); [left; auto|]. replace (s_along (s_r2 p) (s_r2 q) 0) with (s_r2 p) by (unfold s_along, s_r2; cbn [v2x v2y]; f_equal; ring).
      eapply near_le; [apply (len2_near p (s_r2 p) 0 M PX PY BP); [lra|assert (0 < uro * M) by (apply Rmult_lt_0_compat; lra); lra]|lra].
    - apply (KEY _ 1); [right; left; auto|]. replace (s_along (s_r2 p) (s_r2 q) 1) with (s_r2 q) by (unfold s_along, s_r2; cbn [v2x v2y]; f_equal; ring).
      eapply near_le; [apply (len2_near q (s_r2 q) 0 M QX QY BQ); [lra|assert (0 < uro * M) by (apply Rmult_lt_0_compat; lra); lra]|lra].
    - apply (KEY _ (B2R t)); [right; right; split; [lra|reflexivity]|]. apply mid_near; auto. lra.
  Qed.
End Dist.
