(** Facts about atan2 on the reals. *)
From Coq Require Import Reals ZArith Lra Lia.
From Verif Require Import Num.
Local Open Scope R_scope.

Lemma sin_half_zero : forall x, - PI < x < PI -> sin x = 0 -> x = 0.
Proof.
  intros x H E. destruct (Rtotal_order x 0) as [L|[L|L]]; auto.
  - assert (0 < sin (- x)) by (apply sin_gt_0; lra). rewrite sin_neg in *. lra.
  - assert (0 < sin x) by (apply sin_gt_0; lra). lra.
Qed.

Lemma angle_unique : forall a b, - PI < a <= PI -> - PI < b <= PI ->
  cos a = cos b -> sin a = sin b -> a = b.
Proof.
  intros a b Ha Hb Hc Hs.
  assert (C : cos (a - b) = 1).
  { rewrite cos_minus, Hc, Hs. pose proof (sin2_cos2 b). unfold Rsqr in *. lra. }
  assert (S : sin ((a - b) / 2) = 0).
  { replace (a - b) with (2 * ((a - b) / 2)) in C by lra. rewrite cos_2a_sin in C.
    assert (sin ((a - b) / 2) * sin ((a - b) / 2) = 0) by lra.
    destruct (Rmult_integral _ _ H); auto. }
  assert ((a - b) / 2 = 0) by (apply sin_half_zero; auto; lra). lra.
Qed.

Lemma atan2_range : forall y x, - PI < Ratan2 y x <= PI.
Proof.
  intros. unfold Ratan2. pose proof PI_RGT_0. pose proof (atan_bound (y/x)).
  destruct (Rlt_dec 0 x); [lra|]. destruct (Rlt_dec x 0).
  - destruct (Rle_dec 0 y).
    + assert (y / x <= 0).
      { unfold Rdiv. assert (/ x < 0) by (apply Rinv_lt_0_compat; auto). nra. }
      assert (atan (y/x) <= 0).
      { rewrite <- atan_0. destruct H1. left; apply atan_increasing; auto. right; congruence. }
      lra.
    + assert (0 < y / x).
      { unfold Rdiv. assert (/ x < 0) by (apply Rinv_lt_0_compat; auto). nra. }
      assert (0 < atan (y/x)) by (rewrite <- atan_0; apply atan_increasing; auto). lra.
  - destruct (Rlt_dec 0 y); [lra|]. destruct (Rlt_dec y 0); lra.
Qed.

Lemma sqrt_ratio : forall x y, x <> 0 -> sqrt (1 + (y/x)²) = sqrt (x*x + y*y) / Rabs x.
Proof.
  intros. replace (1 + (y/x)²) with ((x*x+y*y) / (x²)) by (unfold Rsqr; field; auto).
  rewrite sqrt_div_alt; [|apply Rlt_0_sqr; auto]. rewrite sqrt_Rsqr_abs. reflexivity.
Qed.

Lemma norm_pos : forall x y, x <> 0 \/ y <> 0 -> 0 < sqrt (x*x + y*y).
Proof. intros. apply sqrt_lt_R0. destruct H; nra. Qed.

Lemma atan2_cos_sin : forall y x, x <> 0 \/ y <> 0 ->
  cos (Ratan2 y x) = x / sqrt (x*x + y*y) /\ sin (Ratan2 y x) = y / sqrt (x*x + y*y).
Proof.
  intros y x NZ. pose proof (norm_pos x y NZ) as HP. unfold Ratan2.
  set (n := sqrt (x*x+y*y)) in *.
  assert (BASE : x <> 0 -> cos (atan (y/x)) = Rabs x / n /\ sin (atan (y/x)) = y * Rabs x / (x * n)).
  { intros Hx. assert (Rabs x <> 0) by (apply Rabs_no_R0; auto).
    rewrite cos_atan, sin_atan, sqrt_ratio by auto. fold n. split; field; repeat split; auto; lra. }
  destruct (Rlt_dec 0 x).
  - destruct BASE as [-> ->]; [lra|]. rewrite Rabs_pos_eq by lra. split; [auto|field; lra].
  - destruct (Rlt_dec x 0).
    + destruct BASE as [C S]; [lra|]. rewrite Rabs_left in C, S by lra.
      destruct (Rle_dec 0 y).
      * rewrite neg_cos, neg_sin, C, S. split; field; lra.
      * rewrite cos_minus, sin_minus, cos_PI, sin_PI, C, S. split; field; lra.
    + assert (x = 0) by lra. subst x.
      assert (n = Rabs y). { unfold n. rewrite Rmult_0_l, Rplus_0_l. apply sqrt_Rsqr_abs. }
      destruct (Rlt_dec 0 y); [|destruct (Rlt_dec y 0)].
      * rewrite cos_PI2, sin_PI2, H, Rabs_pos_eq by lra. split; field; lra.
      * rewrite cos_neg, sin_neg, cos_PI2, sin_PI2, H, Rabs_left by lra. split; field; lra.
      * exfalso. destruct NZ; lra.
Qed.

Lemma atan2_polar : forall r t, 0 < r -> - PI < t <= PI -> Ratan2 (r * sin t) (r * cos t) = t.
Proof.
  intros r t Hr Ht.
  assert (E : sqrt (r * cos t * (r * cos t) + r * sin t * (r * sin t)) = r).
  { replace (r * cos t * (r * cos t) + r * sin t * (r * sin t)) with (r * r).
    - apply sqrt_square; lra.
    - pose proof (sin2_cos2 t). unfold Rsqr in *.
      transitivity (r * r * (sin t * sin t + cos t * cos t)); [rewrite H|]; ring. }
  assert (NZ : r * cos t <> 0 \/ r * sin t <> 0).
  { destruct (Req_dec (r * cos t) 0); auto. destruct (Req_dec (r * sin t) 0); auto.
    rewrite H, H0 in E. rewrite Rmult_0_l, Rplus_0_r, sqrt_0 in E. lra. }
  destruct (atan2_cos_sin _ _ NZ) as [C S]. rewrite E in C, S.
  apply angle_unique; auto using atan2_range.
  - rewrite C. field; lra.
  - rewrite S. field; lra.
Qed.

Lemma atan2_scale : forall k y x, 0 < k -> Ratan2 (k * y) (k * x) = Ratan2 y x.
Proof.
  intros. destruct (Req_dec x 0); [destruct (Req_dec y 0)|].
  - subst. rewrite !Rmult_0_r. reflexivity.
  - assert (Hn: x <> 0 \/ y <> 0) by auto. destruct (atan2_cos_sin _ _ Hn) as [C S].
    pose proof (norm_pos _ _ Hn). set (n := sqrt _) in *. set (t := Ratan2 y x) in *.
    assert (Ex : k * x = (k * n) * cos t) by (rewrite C; field; lra).
    assert (Ey : k * y = (k * n) * sin t) by (rewrite S; field; lra).
    rewrite Ex, Ey. apply atan2_polar. nra. apply atan2_range.
  - assert (Hn: x <> 0 \/ y <> 0) by auto. destruct (atan2_cos_sin _ _ Hn) as [C S].
    pose proof (norm_pos _ _ Hn). set (n := sqrt _) in *. set (t := Ratan2 y x) in *.
    assert (Ex : k * x = (k * n) * cos t) by (rewrite C; field; lra).
    assert (Ey : k * y = (k * n) * sin t) by (rewrite S; field; lra).
    rewrite Ex, Ey. apply atan2_polar. nra. apply atan2_range.
Qed.

Lemma atan2_nonneg_range : forall y x, 0 <= x -> - (PI/2) <= Ratan2 y x <= PI/2.
Proof.
  intros. unfold Ratan2. pose proof PI_RGT_0. pose proof (atan_bound (y/x)).
  destruct (Rlt_dec 0 x); [lra|]. destruct (Rlt_dec x 0); [lra|].
  destruct (Rlt_dec 0 y); [lra|]. destruct (Rlt_dec y 0); lra.
Qed.
