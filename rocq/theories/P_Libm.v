(** * pi, roll-pitch-yaw and angles of points on doubles *)
From Coq Require Import ZArith Reals Lra Lia Bool List.
From Flocq Require Import Core BinarySingleNaN.
From Verif Require Import Num MathTypes Spec SpecRound SpecLaser Libm SpecLibm P_Tac P_Math P_Trig P_Laser2 P_Round P_Round3 P_OctF P_RayF P_QuatF.
Import ListNotations.
Local Open Scope R_scope.
Local Notation fin := (is_finite (prec := 53) (emax := 1024)).

Lemma fact_step : forall n, INR (fact (S n)) = INR (S n) * INR (fact n).
Proof. intro n. rewrite fact_simpl, mult_INR. reflexivity. Qed.
Definition st (a : R) (i : nat) : R := a ^ (2 * i + 1) / INR (fact (2 * i + 1)).
Lemma st_0 : forall a, st a 0 = a.
Proof. intro a. unfold st. cbn. field. Qed.
Lemma st_S : forall a i, st a (S i) = st a i * (a * a) / (INR (2 * i + 2) * INR (2 * i + 3)).
Proof.
  intros a i. unfold st. replace (2 * S i + 1)%nat with (S (S (2 * i + 1))) by lia. rewrite !fact_step.
  replace (S (S (2 * i + 1))) with (2 * i + 3)%nat by lia. replace (S (2 * i + 1)) with (2 * i + 2)%nat by lia.
  replace (a ^ (2 * i + 3)) with (a ^ (2 * i + 1) * (a * a)).
  - field. repeat split; apply not_0_INR; try lia. apply fact_neq_0.
  - replace (2 * i + 3)%nat with ((2 * i + 1) + 2)%nat by lia. rewrite (pow_add a (2 * i + 1) 2). cbn [pow]. ring.
Qed.
Lemma sin_bounds : forall a, 0 <= a <= 1 ->
  let b := a * a in
  a * (1 - b / 6 * (1 - b / 20 * (1 - b / 42 * (1 - b / 72 * (1 - b / 110 * (1 - b / 156 * (1 - b / 210))))))) <= sin a
  <= a * (1 - b / 6 * (1 - b / 20 * (1 - b / 42 * (1 - b / 72 * (1 - b / 110 * (1 - b / 156 * (1 - b / 210 * (1 - b / 272)))))))).
Proof.
  intros a A b. pose proof PI_RGT_0. pose proof PI2_3_2 as P.
  destruct (sin_bound a 3) as [L U]; [lra|lra|]. unfold sin_approx in *.
  assert (E : forall n, sum_f_R0 (sin_term a) n = sum_f_R0 (fun i => (-1) ^ i * st a i) n).
  { intro n. apply sum_eq. intros i _. reflexivity. }
  rewrite E in L, U. cbn [Nat.mul Nat.add] in L, U. cbn [sum_f_R0] in L, U. rewrite !st_S, st_0 in L. rewrite !st_S, st_0 in U. cbn [INR Nat.mul Nat.add] in L, U.
  cbn [pow] in L, U. split; [eapply Rle_trans; [|exact L]|eapply Rle_trans; [exact U|]]; unfold b; right; field.
Qed.
Lemma pi_lo : IZR 7074237752028440 / 2251799813685248 <= PI.
Proof.
  set (p := IZR 7074237752028440 / 2251799813685248). apply Rnot_lt_le. intro H.
  destruct (sin_bounds (p / 6)) as [_ U]; [unfold p; lra|].
  assert (S : sin (p / 6) < 1 / 2).
  { eapply Rle_lt_trans; [exact U|]. unfold p. lra. }
  rewrite <- sin_PI6 in S. pose proof PI_RGT_0. apply (Rlt_irrefl (sin (PI / 6))). eapply Rlt_trans; [|exact S].
  apply sin_increasing_1; unfold p in *; pose proof PI2_3_2; lra.
Qed.
Lemma pi_up : PI <= IZR 7074237752028440 / 2251799813685248 + / 4503599627370496.
Proof.
  set (p := IZR 7074237752028440 / 2251799813685248 + / 4503599627370496). apply Rnot_lt_le. intro H.
  destruct (sin_bounds (p / 6)) as [L _]; [unfold p; lra|].
  assert (S : 1 / 2 < sin (p / 6)).
  { eapply Rlt_le_trans; [|exact L]. unfold p. lra. }
  rewrite <- sin_PI6 in S. pose proof PI_RGT_0. apply (Rlt_irrefl (sin (PI / 6))). eapply Rlt_trans; [exact S|].
  apply sin_increasing_1; unfold p in *; pose proof PI2_3_2; lra.
Qed.
Lemma f_pi_R : fin f_pi = true /\ B2R f_pi = IZR 7074237752028440 / 2251799813685248.
Proof.
  split; [vm_compute; reflexivity|]. assert (E : B2SF f_pi = SpecFloat.S754_finite false 7074237752028440 (-51)) by (vm_compute; reflexivity).
  rewrite <- SF2R_B2SF, E. unfold SF2R, F2R. cbn [cond_Zopp Fnum Fexp]. change (bpow radix2 (-51)) with (/ IZR 2251799813685248). reflexivity.
Qed.
Lemma f_pi_near : near (2 * uro) f_pi PI.
Proof.
  destruct f_pi_R as [F E]. split; auto. rewrite E. pose proof pi_lo. pose proof pi_up. unfold uro. apply Rabs_le. lra.
Qed.

(** ** products *)
Lemma near_mul : forall e d x X y Y, near e x X -> near d y Y -> Rabs X <= 1 -> Rabs Y <= 1 -> e <= 1 / 10 -> d <= 1 / 10 ->
  near (e + d + e * d + 2 * uro) (nmul x y) (X * Y).
Proof.
  intros e d x X y Y [F1 E1] [F2 E2] HX HY SE SD.
  assert (E0 : 0 <= e) by (pose proof (Rabs_pos (B2R x - X)); lra). assert (D0 : 0 <= d) by (pose proof (Rabs_pos (B2R y - Y)); lra).
  pose proof (Rabs_close _ _ _ _ E1 HX) as SX. pose proof (Rabs_close _ _ _ _ E2 HY) as SY.
  pose proof (Rabs_mult_le _ _ _ _ SX SY) as SP.
  assert (SP' : Rabs (B2R x * B2R y) <= 121 / 100) by nra.
  destruct (mul_R x y F1 F2) as [F R]; [apply big100; lra|]. split; auto. rewrite R.
  replace (rnd (B2R x * B2R y) - X * Y) with ((rnd (B2R x * B2R y) - B2R x * B2R y) + ((B2R x - X) * Y + X * (B2R y - Y) + (B2R x - X) * (B2R y - Y))) by ring.
  pose proof (rnd_err (B2R x * B2R y)) as RE. pose proof eta_u. pose proof uro_pos.
  pose proof (Rabs_mult_le _ _ _ _ E1 HY). pose proof (Rabs_mult_le _ _ _ _ HX E2). pose proof (Rabs_mult_le _ _ _ _ E1 E2).
  assert (UU : uro * Rabs (B2R x * B2R y) <= uro * (121 / 100)) by (apply uro_le; lra).
  eapply Rle_trans; [apply Rabs_triang|]. eapply Rle_trans; [apply Rplus_le_compat; [exact RE|eapply Rle_trans; [apply Rabs_triang|apply Rplus_le_compat; [apply Rabs_triang|apply Rle_refl]]]|].
  lra.
Qed.
Lemma sin_1 : forall x, Rabs (sin x) <= 1. Proof. intro x. apply Rabs_le. pose proof (SIN_bound x). lra. Qed.
Lemma cos_1 : forall x, Rabs (cos x) <= 1. Proof. intro x. apply Rabs_le. pose proof (COS_bound x). lra. Qed.
Lemma prod_1 : forall x y, Rabs x <= 1 -> Rabs y <= 1 -> Rabs (x * y) <= 1.
Proof. intros x y X Y. pose proof (Rabs_mult_le _ _ _ _ X Y). lra. Qed.

Lemma near9 : forall e a b c d f g h i j A B C D F G H I J,
  near e a A -> near e b B -> near e c C -> near e d D -> near e f F -> near e g G -> near e h H -> near e i I -> near e j J ->
  s_finm (M3 a b c d f g h i j) /\ s_closem e (rm (M3 a b c d f g h i j)) (M3 A B C D F G H I J).
Proof. intros. unfold near in *. unfold s_finm, s_closem, s_close, s_fin, rm. cbn. tauto. Qed.

(** ** setRPY *)
Lemma rpy_near : forall c L (r p y : F64), s_libm c L -> 0 <= c <= 1000000 -> fin r = true -> fin p = true -> fin y = true ->
  let m := @m3rpy F64 NumF (TrigF L) r p y in
  s_finm m /\ s_closem ((6 * c + 10) * uro) (rm m) (s_rpy (B2R r) (B2R p) (B2R y)).
Proof.
  intros c L r p y [LS [LC _]] C FR FP FY.
  pose proof (LS r FR) as SI. pose proof (LS p FP) as SJ. pose proof (LS y FY) as SH.
  pose proof (LC r FR) as CI. pose proof (LC p FP) as CJ. pose proof (LC y FY) as CH.
  unfold m3rpy. cbn [nsin ncos TrigF]. set (e := c * uro) in *.
  assert (U : 0 < uro) by apply uro_pos. assert (E0 : 0 <= e) by (unfold e; nra). assert (E1 : e <= / 1000000) by (unfold e, uro; lra).
  change (near e (lm_sin L r) (sin (B2R r))) in SI. change (near e (lm_sin L p) (sin (B2R p))) in SJ. change (near e (lm_sin L y) (sin (B2R y))) in SH.
  change (near e (lm_cos L r) (cos (B2R r))) in CI. change (near e (lm_cos L p) (cos (B2R p))) in CJ. change (near e (lm_cos L y) (cos (B2R y))) in CH.
  clear LS LC. set (si := lm_sin L r) in *. set (sj := lm_sin L p) in *. set (sh := lm_sin L y) in *. set (ci := lm_cos L r) in *. set (cj := lm_cos L p) in *. set (ch := lm_cos L y) in *.
  pose proof (sin_1 (B2R r)) as SI1. pose proof (sin_1 (B2R p)) as SJ1. pose proof (sin_1 (B2R y)) as SH1.
  pose proof (cos_1 (B2R r)) as CI1. pose proof (cos_1 (B2R p)) as CJ1. pose proof (cos_1 (B2R y)) as CH1.
  unfold s_rpy, rot_z, rot_y, rot_x. cbn [vx vy vz].
  set (Si := sin (B2R r)) in *. set (Sj := sin (B2R p)) in *. set (Sh := sin (B2R y)) in *. set (Ci := cos (B2R r)) in *. set (Cj := cos (B2R p)) in *. set (Ch := cos (B2R y)) in *.
  assert (US : uro <= / 1000000000000) by apply u_small.
  assert (M2 : forall x X z Z, near e x X -> near e z Z -> Rabs X <= 1 -> Rabs Z <= 1 -> near (2 * e + e / 1000000 + 2 * uro) (nmul x z) (X * Z)).
  { intros x X z Z NX NZ X1 Z1. eapply near_le; [apply near_mul; eauto; lra|]. nra. }
  assert (MM3 : forall x X z Z, near e x X -> near (2 * e + e / 1000000 + 2 * uro) z Z -> Rabs X <= 1 -> Rabs Z <= 1 -> near (3 * e + e / 100000 + 5 * uro) (nmul x z) (X * Z)).
  { intros x X z Z NX NZ X1 Z1. eapply near_le; [apply near_mul; eauto; lra|]. nra. }
  assert (cc := M2 _ _ _ _ CI CH CI1 CH1). assert (cs := M2 _ _ _ _ CI SH CI1 SH1). assert (sc := M2 _ _ _ _ SI CH SI1 CH1). assert (ss := M2 _ _ _ _ SI SH SI1 SH1).
  pose proof (prod_1 _ _ CI1 CH1) as cc1. pose proof (prod_1 _ _ CI1 SH1) as cs1. pose proof (prod_1 _ _ SI1 CH1) as sc1. pose proof (prod_1 _ _ SI1 SH1) as ss1.
  assert (A3 : forall x X z Z W, near (3 * e + e / 100000 + 5 * uro) x X -> near (2 * e + e / 1000000 + 2 * uro) z Z -> Rabs X <= 1 -> Rabs Z <= 1 -> X + Z = W -> near (6 * e + 10 * uro) (nadd x z) W).
  { intros x X z Z W NX NZ X1 Z1 <-. eapply near_le; [apply (near_add _ _ _ _ _ _ 2 NX NZ); [pose proof (Rabs_triang X Z)|..]; lra|]. lra. }
  assert (S3 : forall x X z Z W, near (3 * e + e / 100000 + 5 * uro) x X -> near (2 * e + e / 1000000 + 2 * uro) z Z -> Rabs X <= 1 -> Rabs Z <= 1 -> X - Z = W -> near (6 * e + 10 * uro) (nsub x z) W).
  { intros x X z Z W NX NZ X1 Z1 <-. eapply near_le; [apply (near_sub _ _ _ _ _ _ 2 NX NZ); [pose proof (Rabs_triang X (- Z)) as TR; rewrite Rabs_Ropp in TR; unfold Rminus|..]; lra|]. lra. }
  assert (W2 : forall x X W, near (2 * e + e / 1000000 + 2 * uro) x X -> X = W -> near (6 * e + 10 * uro) x W) by (intros x X W NX <-; eapply near_le; [exact NX|lra]).
  replace ((6 * c + 10) * uro) with (6 * e + 10 * uro) by (unfold e; ring).
  assert (T3 : forall x X z Z, near e x X -> near (2 * e + e / 1000000 + 2 * uro) z Z -> Rabs X <= 1 -> Rabs Z <= 1 -> Rabs (X * Z) <= 1 /\ near (3 * e + e / 100000 + 5 * uro) (nmul x z) (X * Z)) by (intros; split; [apply prod_1; auto|apply MM3; auto]).
  destruct (T3 _ _ _ _ SJ sc SJ1 sc1) as [p1 n1]. destruct (T3 _ _ _ _ SJ cc SJ1 cc1) as [p2 n2]. destruct (T3 _ _ _ _ SJ ss SJ1 ss1) as [p3 n3]. destruct (T3 _ _ _ _ SJ cs SJ1 cs1) as [p4 n4].
  assert (N31 := near_opp _ _ _ SJ).
  apply near9.
  - apply (W2 _ _ _ (M2 _ _ _ _ CJ CH CJ1 CH1)). ring.
  - apply (S3 _ _ _ _ _ n1 cs p1 cs1). ring.
  - apply (A3 _ _ _ _ _ n2 ss p2 ss1). ring.
  - apply (W2 _ _ _ (M2 _ _ _ _ CJ SH CJ1 SH1)). ring.
  - apply (A3 _ _ _ _ _ n3 cc p3 cc1). ring.
  - apply (S3 _ _ _ _ _ n4 sc p4 sc1). ring.
  - eapply near_eq; [eapply near_le; [exact N31|lra]|ring].
  - apply (W2 _ _ _ (M2 _ _ _ _ CJ SI CJ1 SI1)). ring.
  - apply (W2 _ _ _ (M2 _ _ _ _ CJ CI CJ1 CI1)). ring.
Qed.

(** ** angles of perturbed points *)
Lemma tan_ge : forall d, 0 <= d -> d <= PI / 2 -> d * cos d <= sin d.
Proof.
  intros d D0 D1. destruct (Req_dec d 0) as [->|NZ]; [rewrite sin_0; lra|].
  destruct (MVT_cor2 (fun x => sin x - x * cos x) (fun x => cos x - (1 * cos x + x * - sin x)) 0 d) as [c [E C]]; [lra| |].
  { intros c _. apply (derivable_pt_lim_minus sin (fun x => x * cos x)); [apply derivable_pt_lim_sin|].
    apply (derivable_pt_lim_mult (fun x => x) cos); [apply derivable_pt_lim_id|apply derivable_pt_lim_cos]. }
  rewrite sin_0, cos_0 in E. assert (S0 : 0 <= sin c) by (apply sin_ge_0; lra). assert (0 <= c * sin c) by (apply Rmult_le_pos; lra). assert (0 <= c * sin c * d) by (apply Rmult_le_pos; lra). lra.
Qed.
Lemma small_angle : forall D E, - PI / 2 < D < PI / 2 -> Rabs (sin D) <= E * cos D -> Rabs D <= E.
Proof.
  assert (G : forall D E, 0 <= D < PI / 2 -> sin D <= E * cos D -> D <= E).
  { intros D E R H. pose proof (tan_ge D ltac:(lra) ltac:(lra)). assert (0 < cos D) by (apply cos_gt_0; lra). nra. }
  intros D E R H. destruct (Rle_dec 0 D) as [P|P].
  - rewrite Rabs_pos_eq by lra. rewrite Rabs_pos_eq in H by (apply sin_ge_0; lra). apply G; lra.
  - rewrite Rabs_left by lra. apply G; [lra|]. rewrite sin_neg, cos_neg. pose proof (Rle_abs (- sin D)). rewrite Rabs_Ropp in *. lra.
Qed.
Lemma sin_per : forall x, sin (x + 2 * PI) = sin x. Proof. intro x. replace (x + 2 * PI) with (x + 2 * INR 1 * PI) by (cbn [INR]; ring). apply sin_period. Qed.
Lemma cos_per : forall x, cos (x + 2 * PI) = cos x. Proof. intro x. replace (x + 2 * PI) with (x + 2 * INR 1 * PI) by (cbn [INR]; ring). apply cos_period. Qed.
Lemma ang_near : forall X Y r t e a, Rabs (X - r * cos t) <= e -> Rabs (Y - r * sin t) <= e -> 0 < r -> 4 * e <= r -> s_angle (V2 X Y) a ->
  Rabs t + 4 * e / r < PI -> Rabs (a - t) <= 4 * e / r.
Proof.
  intros X Y r t e a HX HY R0 E4 [RA [rho [P EQ]]] T. injection EQ as -> ->.
  set (dx := rho * cos a - r * cos t) in *. set (dy := rho * sin a - r * sin t) in *. pose proof (sin2_cos2 t) as SC. unfold Rsqr in SC.
  assert (E0 : 0 <= e) by (pose proof (Rabs_pos dx); lra).
  pose proof (Rabs_mult_le _ _ _ _ HX (cos_1 t)) as B1. pose proof (Rabs_mult_le _ _ _ _ HY (sin_1 t)) as B2. pose proof (Rabs_mult_le _ _ _ _ HX (sin_1 t)) as B3. pose proof (Rabs_mult_le _ _ _ _ HY (cos_1 t)) as B4.
  assert (C : rho * cos (a - t) >= r - 2 * e).
  { rewrite cos_minus. replace (rho * (cos a * cos t + sin a * sin t)) with (r * (sin t * sin t + cos t * cos t) + dx * cos t + dy * sin t) by (unfold dx, dy; ring).
    rewrite SC. apply Rabs_le_inv in B1. apply Rabs_le_inv in B2. lra. }
  assert (S : rho * Rabs (sin (a - t)) <= 2 * e).
  { rewrite <- (Rabs_pos_eq rho) at 1 by lra. rewrite <- Rabs_mult, sin_minus.
    replace (rho * (sin a * cos t - cos a * sin t)) with (dy * cos t - dx * sin t) by (unfold dx, dy; ring).
    apply Rabs_le. apply Rabs_le_inv in B3. apply Rabs_le_inv in B4. lra. }
  assert (CP : 0 < cos (a - t)) by nra.
  assert (Q : Rabs (sin (a - t)) <= 4 * e / r * cos (a - t)).
  { apply Rmult_le_reg_l with (rho * r); [nra|]. replace (rho * r * (4 * e / r * cos (a - t))) with (4 * e * (rho * cos (a - t))) by (field; lra).
    apply Rle_trans with (r * (2 * e)); [nra|]. assert (4 * e * (r - 2 * e) <= 4 * e * (rho * cos (a - t))) by (apply Rmult_le_compat_l; lra). nra. }
  assert (EP : 0 <= 4 * e / r) by (apply Rmult_le_pos; [lra|left; apply Rinv_0_lt_compat; lra]).
  pose proof PI_RGT_0 as PP. pose proof (Rle_abs t). pose proof (Rle_abs (- t)) as T'. rewrite Rabs_Ropp in T'.
  destruct (Rlt_dec (a - t) (PI / 2)) as [L1|L1].
  - destruct (Rlt_dec (- PI / 2) (a - t)) as [L2|L2]; [apply small_angle; auto; lra|]. exfalso.
    destruct (Rle_dec (-3 * (PI / 2)) (a - t)) as [L3|L3].
    { assert (cos (a - t) <= 0); [|lra]. rewrite <- cos_neg. apply cos_le_0; lra. }
    pose proof (small_angle (a - t + 2 * PI) (4 * e / r) ltac:(lra)) as SA. rewrite sin_per, cos_per in SA. specialize (SA Q). apply Rabs_le_inv in SA. lra.
  - exfalso. destruct (Rle_dec (a - t) (3 * (PI / 2))) as [L3|L3]; [assert (cos (a - t) <= 0) by (apply cos_le_0; lra); lra|].
    pose proof (small_angle (a - t - 2 * PI) (4 * e / r) ltac:(lra)) as SA.
    rewrite <- (sin_per (a - t - 2 * PI)), <- (cos_per (a - t - 2 * PI)) in SA. replace (a - t - 2 * PI + 2 * PI) with (a - t) in SA by ring. specialize (SA Q). apply Rabs_le_inv in SA. lra.
Qed.
Lemma angle_ex : forall X Y, X <> 0 \/ Y <> 0 -> exists a, s_angle (V2 X Y) a.
Proof.
  intros X Y H. destruct (polar (V2 X Y)) as [r [R [E B]]]; [intro Q; injection Q as -> ->; destruct H; auto|].
  exists (s_ang (V2 X Y)). split; auto. exists r. auto.
Qed.
(** atan2 of a point close to the one at distance r in direction t *)
Lemma atan2_near : forall c L (y x : F64) r t e, s_libm c L -> near e x (r * cos t) -> near e y (r * sin t) -> 0 < r -> 4 * e <= r -> Rabs t + 4 * e / r < PI ->
  near (4 * e / r + 4 * c * uro) (lm_atan2 L y x) t.
Proof.
  intros c L y x r t e [_ [_ LA]] [FX HX] [FY HY] R0 E4 T.
  assert (E0 : 0 <= e) by (pose proof (Rabs_pos (B2R x - r * cos t)); lra).
  assert (NZ : B2R x <> 0 \/ B2R y <> 0).
  { destruct (Req_dec (B2R x) 0) as [Zx|]; [|auto]. destruct (Req_dec (B2R y) 0) as [Zy|]; [|auto]. exfalso. rewrite Zx in HX. rewrite Zy in HY.
    pose proof (sin2_cos2 t) as SC. unfold Rsqr in SC. apply Rabs_le_inv in HX. apply Rabs_le_inv in HY. nra. }
  destruct (angle_ex _ _ NZ) as [a A]. pose proof (ang_near _ _ r t e a HX HY R0 E4 A T) as AN.
  assert (OK : B2R y <> 0 \/ 0 < B2R x).
  { destruct (Req_dec (B2R y) 0) as [Zy|]; [|auto]. right. destruct (Rlt_dec 0 (B2R x)) as [|NP]; auto. exfalso.
    assert (AP : s_angle (V2 (B2R x) (B2R y)) PI).
    { split; [pose proof PI_RGT_0; lra|]. exists (- B2R x). split; [destruct NZ; lra|]. rewrite cos_PI, sin_PI, Zy. f_equal; ring. }
    pose proof (ang_near _ _ r t e PI HX HY R0 E4 AP T) as B. apply Rabs_le_inv in B. pose proof (Rle_abs t). lra. }
  destruct (LA y x a FY FX OK A) as [F B]. split; auto. replace (B2R (lm_atan2 L y x) - t) with ((B2R (lm_atan2 L y x) - a) + (a - t)) by ring.
  eapply Rle_trans; [apply Rabs_triang|]. lra.
Qed.

(** ** getRPY *)
Lemma eps_R : fin (nlit 1 1000000000000 : F64) = true /\ B2R (nlit 1 1000000000000 : F64) <= / 500000000000.
Proof.
  split; [vm_compute; reflexivity|]. assert (E : B2SF (nlit 1 1000000000000 : F64) = SpecFloat.S754_finite false 4951760157141521 (-92)) by (vm_compute; reflexivity).
  rewrite <- SF2R_B2SF, E. unfold SF2R, F2R. cbn [cond_Zopp Fnum Fexp]. change (bpow radix2 (-92)) with (/ IZR (2 ^ 92)). cbn. lra.
Qed.
Lemma eta_tiny : eta <= uro / 1000000000000000000.
Proof. apply Rle_trans with (bpow radix2 (-123)); [apply bpow_le; lia|]. unfold uro. change (bpow radix2 (-123)) with (/ IZR (2 ^ 123)). cbn. lra. Qed.
Lemma sqrt_close : forall x y, 0 <= x -> 0 < y -> Rabs (sqrt x - sqrt y) <= Rabs (x - y) / sqrt y.
Proof.
  intros x y X Y. pose proof (sqrt_pos x) as SX. pose proof (sqrt_lt_R0 y Y) as SY.
  replace (x - y) with ((sqrt x - sqrt y) * (sqrt x + sqrt y)) by (pose proof (sqrt_sqrt x X); pose proof (sqrt_sqrt y (Rlt_le _ _ Y)); nra).
  rewrite Rabs_mult, (Rabs_pos_eq (sqrt x + sqrt y)) by lra. apply Rmult_le_reg_r with (sqrt y); auto.
  unfold Rdiv. rewrite Rmult_assoc, Rinv_l, Rmult_1_r by lra. apply Rmult_le_compat_l; [apply Rabs_pos|lra].
Qed.
Lemma hyp_near : forall (a b : F64) C t e, near e a (C * sin t) -> near e b (C * cos t) -> / 1000000 <= C <= 1 -> 4 * e <= C -> e <= / 1000 ->
  near (2 * e + 5 * uro) (nsqrt (nadd (nmul a a) (nmul b b))) C.
Proof.
  intros a b C t e [FA HA] [FB HB] [C0 C1] E4 E3.
  assert (E0 : 0 <= e) by (pose proof (Rabs_pos (B2R a - C * sin t)); lra).
  assert (HBA : Rabs (C * sin t) <= 1) by (apply prod_1; [apply Rabs_le; lra|apply sin_1]). assert (HBB : Rabs (C * cos t) <= 1) by (apply prod_1; [apply Rabs_le; lra|apply cos_1]).
  pose proof (Rabs_close _ _ _ _ HA HBA) as SA. pose proof (Rabs_close _ _ _ _ HB HBB) as SB.
  set (x := B2R a) in *. set (y := B2R b) in *. set (v := x * x + y * y). pose proof uro_pos as U. pose proof eta_tiny as ET. pose proof u_small as US.
  assert (ET0 : 0 < eta) by apply bpow_gt_0.
  assert (VN : Rabs (sqrt v - C) <= 2 * e).
  { assert (V0 : 0 <= v) by (unfold v; nra). pose proof (sin2_cos2 t) as SC. unfold Rsqr in SC.
    set (d1 := x - C * sin t) in *. set (d2 := y - C * cos t) in *. assert (EX : v = C * C + 2 * C * (sin t * d1 + cos t * d2) + (d1 * d1 + d2 * d2)).
    { unfold v. replace x with (C * sin t + d1) by (unfold d1; ring). replace y with (C * cos t + d2) by (unfold d2; ring).
      transitivity (C * C * (sin t * sin t + cos t * cos t) + 2 * C * (sin t * d1 + cos t * d2) + (d1 * d1 + d2 * d2)); [ring|rewrite SC; ring]. }
    assert (W : Rabs (sin t * d1 + cos t * d2) <= 3 / 2 * e).
    { assert (Rabs (sin t) + Rabs (cos t) <= 3 / 2).
      { assert (Q : (Rabs (sin t) + Rabs (cos t)) * (Rabs (sin t) + Rabs (cos t)) <= 2).
        { assert (SQ : forall z, Rabs z * Rabs z = z * z) by (intro z; rewrite <- Rabs_mult; apply Rabs_pos_eq; nra). pose proof (SQ (sin t)). pose proof (SQ (cos t)). pose proof (Rle_0_sqr (Rabs (sin t) - Rabs (cos t))) as SS. unfold Rsqr in SS. nra. }
        pose proof (Rabs_pos (sin t)). pose proof (Rabs_pos (cos t)). nra. }
      eapply Rle_trans; [apply Rabs_triang|]. rewrite !Rabs_mult. pose proof (Rabs_pos (sin t)). pose proof (Rabs_pos (cos t)). nra. }
    assert (D1 : 0 <= d1 * d1 <= e * e) by (apply Rabs_le_inv in HA; nra). assert (D2 : 0 <= d2 * d2 <= e * e) by (apply Rabs_le_inv in HB; nra).
    apply Rabs_le_inv in W. set (w := sin t * d1 + cos t * d2) in *. clearbody w. assert (CW : - (C * (3 / 2 * e)) <= C * w <= C * (3 / 2 * e)) by nra.
    clear - V0 EX CW D1 D2 C0 E4 E0. apply Rabs_le. split.
    - assert (C - 2 * e <= sqrt v); [|lra]. rewrite <- (sqrt_square (C - 2 * e)) by lra. apply sqrt_le_1_alt. nra.
    - assert (sqrt v <= C + 2 * e); [|lra]. rewrite <- (sqrt_square (C + 2 * e)) by lra. apply sqrt_le_1_alt. nra. }
  assert (SVL : C / 2 <= sqrt v) by (apply Rabs_le_inv in VN; lra).
  assert (SVU : sqrt v <= 101 / 100) by (apply Rabs_le_inv in VN; lra).
  assert (V0 : 0 <= v) by (unfold v; nra).
  assert (VL : / 4000000000000 <= v). { rewrite <- (sqrt_sqrt v V0). nra. }
  assert (VU : v <= 2) by (rewrite <- (sqrt_sqrt v V0); nra).
  assert (PX : 0 <= x * x) by nra. assert (PY : 0 <= y * y) by nra.
  destruct (mul_R a a FA FA) as [F1 R1]; [fold x; rewrite Rabs_pos_eq by auto; apply big100; unfold v in VU; lra|].
  destruct (mul_R b b FB FB) as [F2 R2]; [fold y; rewrite Rabs_pos_eq by auto; apply big100; unfold v in VU; lra|].
  fold x in R1. fold y in R2. pose proof (rnd_err (x * x)) as G1. pose proof (rnd_err (y * y)) as G2. rewrite <- R1 in G1. rewrite <- R2 in G2. rewrite (Rabs_pos_eq (x * x)) in G1 by auto. rewrite (Rabs_pos_eq (y * y)) in G2 by auto.
  set (p := nmul a a) in *. set (q := nmul b b) in *.
  assert (D : Rabs (B2R p + B2R q - v) <= uro * v + 2 * eta).
  { replace (B2R p + B2R q - v) with ((B2R p - x * x) + (B2R q - y * y)) by (unfold v; ring). eapply Rle_trans; [apply Rabs_triang|]. unfold v. lra. }
  assert (SPQ : Rabs (B2R p + B2R q) <= v + uro * v + 2 * eta).
  { replace (B2R p + B2R q) with ((B2R p + B2R q - v) + v) by ring. eapply Rle_trans; [apply Rabs_triang|]. rewrite (Rabs_pos_eq v) by auto. lra. }
  destruct (add_R p q F1 F2) as [F3 R3]; [apply big100; nra|].
  pose proof (rnd_err (B2R p + B2R q)) as G3. rewrite <- R3 in G3. set (s := nadd p q) in *.
  assert (DW : Rabs (B2R s - v) <= 3 * uro * v).
  { replace (B2R s - v) with ((B2R s - (B2R p + B2R q)) + (B2R p + B2R q - v)) by ring. eapply Rle_trans; [apply Rabs_triang|].
    assert (UU : uro * Rabs (B2R p + B2R q) <= uro * (v + uro * v + 2 * eta)) by (apply uro_le; auto).
    assert (ETV : 10 * eta <= uro * v / 10) by (clear - ET VL U ET0; nra).
    assert (uro * (v + uro * v + 2 * eta) <= uro * (v * (11 / 10))) by (apply uro_le; clear - ETV US U VL; nra). lra. }
  assert (S0 : 0 <= B2R s) by (apply Rabs_le_inv in DW; clear - DW US U VL; nra).
  destruct (sqrt_R s F3 S0) as [F4 R4]. split; auto. rewrite R4.
  pose proof (rnd_err (sqrt (B2R s))) as G4. pose proof (sqrt_close (B2R s) v S0 ltac:(lra)) as SC.
  assert (SC' : Rabs (sqrt (B2R s) - sqrt v) <= 3 * uro * (101 / 100)).
  { eapply Rle_trans; [exact SC|]. apply Rle_trans with (3 * uro * sqrt v); [|apply Rmult_le_compat_l; lra].
    apply Rmult_le_reg_r with (sqrt v); [lra|]. unfold Rdiv. rewrite Rmult_assoc, Rinv_l, Rmult_1_r by lra. rewrite Rmult_assoc, sqrt_sqrt by auto. exact DW. }
  assert (SS : Rabs (sqrt (B2R s)) <= 102 / 100) by (apply Rabs_le; apply Rabs_le_inv in SC'; pose proof (sqrt_pos (B2R s)); lra).
  replace (rnd (sqrt (B2R s)) - C) with ((rnd (sqrt (B2R s)) - sqrt (B2R s)) + ((sqrt (B2R s) - sqrt v) + (sqrt v - C))) by ring.
  eapply Rle_trans; [apply Rabs_triang|]. eapply Rle_trans; [apply Rplus_le_compat; [exact G4|apply Rabs_triang]|].
  assert (uro * Rabs (sqrt (B2R s)) <= uro * (102 / 100)) by (apply uro_le; auto). lra.
Qed.
Lemma half_pi_near : near (5 * uro) (ndiv f_pi n2) (PI / 2).
Proof.
  destruct f_pi_near as [F H]. destruct (ofZ_R 2) as [F2 E2]; [lia|]. unfold n2. pose proof PI_4. pose proof PI_RGT_0. pose proof u_small. pose proof eta_u. pose proof uro_pos.
  assert (B : Rabs (B2R f_pi / B2R (nofZ 2 : F64)) <= 3) by (rewrite E2; apply Rabs_le; apply Rabs_le_inv in H; lra).
  destruct (div_R f_pi (nofZ 2) F) as [FD ED]; [rewrite E2; lra|eapply Rle_trans; [exact B|apply big100; lra]|]. split; auto. rewrite ED.
  pose proof (rnd_err (B2R f_pi / B2R (nofZ 2 : F64))) as G. rewrite E2 in *. assert (uro * Rabs (B2R f_pi / 2) <= uro * 3) by (apply uro_le; apply Rabs_le; apply Rabs_le_inv in H; lra).
  replace (rnd (B2R f_pi / 2) - PI / 2) with ((rnd (B2R f_pi / 2) - B2R f_pi / 2) + (B2R f_pi - PI) / 2) by field.
  eapply Rle_trans; [apply Rabs_triang|]. assert (Rabs ((B2R f_pi - PI) / 2) <= uro) by (apply Rabs_le; apply Rabs_le_inv in H; lra). lra.
Qed.
Lemma getRPY_near : forall c L (m : mat3 F64) v r p y e k, s_libm c L -> 0 <= c <= 1000 -> s_finm m -> s_closem e (rm m) (s_rpy r p y) ->
  - PI / 2 < p < PI / 2 -> / 1000000 <= k <= cos p -> e <= k / 1000 -> Rabs r + 4 * e / k < PI -> Rabs y + 4 * e / k < PI ->
  let '(r', p', y') := @tgetRPY F64 NumF (TrigF L) (T3 m v) in
  near (4 * e / k + 4 * c * uro) r' r /\ near (8 * e + (4 * c + 20) * uro) p' p /\ near (4 * e / k + 4 * c * uro) y' y.
Proof.
  intros c L m v r p y e k HL C FM CM P [K0 K1] EK HR HY.
  pose proof (COS_bound p) as CB. pose proof uro_pos as U. pose proof u_small as US.
  destruct m as [m11 m12 m13 m21 m22 m23 m31 m32 m33].
  destruct FM as [[F11 [F12 F13]] [[F21 [F22 F23]] [F31 [F32 F33]]]]. destruct CM as [[C11 [C12 C13]] [[C21 [C22 C23]] [C31 [C32 C33]]]].
  unfold rm, s_rpy, rot_z, rot_y, rot_x in *. cbn [vx vy vz mxx mxy mxz myx myy myz mzx mzy mzz] in *. unfold s_fin in *.
  assert (E0 : 0 <= e) by (eapply Rle_trans; [apply Rabs_pos|exact C11]).
  assert (N11 : near e m11 (cos p * cos y)) by (split; auto; eapply Rle_trans; [|exact C11]; right; f_equal; ring).
  assert (N21 : near e m21 (cos p * sin y)) by (split; auto; eapply Rle_trans; [|exact C21]; right; f_equal; ring).
  assert (N31 : near e m31 (- sin p)) by (split; auto; eapply Rle_trans; [|exact C31]; right; f_equal; ring).
  assert (N32 : near e m32 (cos p * sin r)) by (split; auto; eapply Rle_trans; [|exact C32]; right; f_equal; ring).
  assert (N33 : near e m33 (cos p * cos r)) by (split; auto; eapply Rle_trans; [|exact C33]; right; f_equal; ring).
  clear F12 F13 F22 F23 C12 C13 C22 C23 C11 C21 C31 C32 C33.
  pose proof (hyp_near m32 m33 (cos p) r e N32 N33 ltac:(lra) ltac:(lra) ltac:(lra)) as HQ.
  pose proof (near_opp _ _ _ N31) as NS. apply (near_eq _ _ _ (1 * sin p)) in NS; [|ring]. apply (near_eq _ _ _ (1 * cos p)) in HQ; [|ring].
  apply (near_le _ (2 * e + 5 * uro)) in NS; [|lra]. pose proof PI_RGT_0 as PP. pose proof PI_4 as P4. pose proof PI2_3_2 as P3.
  assert (PA : Rabs p < PI / 2) by (apply Rabs_def1; lra).
  pose proof (atan2_near c L _ _ 1 p (2 * e + 5 * uro) HL HQ NS ltac:(lra) ltac:(lra) ltac:(unfold PI2 in *; lra)) as NP.
  apply (near_le _ (8 * e + (4 * c + 20) * uro)) in NP; [|lra].
  unfold tgetRPY. cbn [tR mzx mzy mzz mxy myy myx mxx natan2 npi TrigF]. cbv zeta.
  set (pt := lm_atan2 L (nopp m31) (nsqrt (nadd (nmul m32 m32) (nmul m33 m33)))) in *.
  assert (BP : Rabs (p - PI / 2) <= 4) by (apply Rabs_le; lra).
  assert (CU : c * uro <= / 1000000000000) by (unfold uro; lra).
  pose proof (near_sub _ _ _ _ _ _ 4 NP half_pi_near BP ltac:(lra) ltac:(lra)) as [FS HS].
  assert (KP : k <= PI / 2 - p).
  { apply Rle_trans with (cos p); auto. rewrite cos_sin. destruct (Req_dec (PI / 2 + p) (PI / 2 + p)) as [_|]; [|congruence].
    replace (PI / 2 + p) with (PI - (PI / 2 - p)) by field. rewrite sin_PI_x. left. apply sin_lt_x. lra. }
  assert (TEST : nltb (nabs (nsub pt (ndiv f_pi n2))) (nlit 1 1000000000000) = false).
  { destruct (abs_R _ FS) as [FA EA]. destruct eps_R as [FE HE]. rewrite ltb_R by auto. apply Rltb_false. rewrite EA.
    rewrite <- Rabs_Ropp. eapply Rle_trans; [|apply Rle_abs]. apply Rabs_le_inv in HS. lra. }
  rewrite TEST. assert (RC : 4 * e / cos p <= 4 * e / k) by (apply Rmult_le_compat_l; [lra|apply Rinv_le_contravar; lra]).
  split; [|split; [exact NP|]].
  - eapply near_le; [apply (atan2_near c L m32 m33 (cos p) r e); auto; lra|lra].
  - eapply near_le; [apply (atan2_near c L m21 m11 (cos p) y e); auto; lra|lra].
Qed.

(** ** Transform3 from roll, pitch and yaw *)
Lemma rpy_rotation : forall r p y, rotation (s_rpy r p y).
Proof.
  intros r p y. replace (s_rpy r p y) with (@m3rpy R NumR TrigR r p y); [apply rotation_rpy|].
  unfold s_rpy, m3rpy, rot_x, rot_y, rot_z. cbn. f_equal; ring.
Qed.
Lemma rpy_moved : forall r p y t v, SpecRound.s_moved (s_rpy r p y) t v = let w := rot_z y (rot_y p (rot_x r v)) in V3 (vx w + vx t) (vy w + vy t) (vz w + vz t).
Proof. intros. unfold SpecRound.s_moved, s_rpy, rot_x, rot_y, rot_z, s_dot. destruct v as [a b c]. cbn. f_equal; ring. Qed.
Lemma moved_close : forall e M a b t v, s_closem e a b -> s_bound M v -> s_close (3 * e * M) (SpecRound.s_moved a t v) (SpecRound.s_moved b t v).
Proof.
  intros e M a b t v [[A1 [A2 A3]] [[B1 [B2 B3]] [C1 [C2 C3]]]] [V1 [V2 V3]]. unfold SpecRound.s_moved, s_dot. cbn [vx vy vz] in *.
  assert (G : forall x y z x' y' z' w, Rabs (x - x') <= e -> Rabs (y - y') <= e -> Rabs (z - z') <= e ->
    Rabs (x * vx v + y * vy v + z * vz v + w - (x' * vx v + y' * vy v + z' * vz v + w)) <= 3 * e * M).
  { intros x y z x' y' z' w X Y Z. pose proof (Rabs_mult_le _ _ _ _ X V1). pose proof (Rabs_mult_le _ _ _ _ Y V2). pose proof (Rabs_mult_le _ _ _ _ Z V3).
    replace (_ - _) with ((x - x') * vx v + (y - y') * vy v + (z - z') * vz v) by ring.
    eapply Rle_trans; [apply Rabs_triang|]. eapply Rle_trans; [apply Rplus_le_compat_r, Rabs_triang|]. lra. }
  repeat split; cbn [vx vy vz]; apply G; auto.
Qed.
Lemma rot_bound : forall a b e, rotation b -> s_closem e a b -> e <= 1 -> s_boundm 2 a.
Proof.
  intros a b e [R1 R2 R3 _ _ _ _] [[A1 [A2 A3]] [[B1 [B2 B3]] [C1 [C2 C3]]]] E. cbn [vx vy vz] in *.
  destruct b as [b1 b2 b3 b4 b5 b6 b7 b8 b9]. unfold s_dot, col1, col2, col3 in *. cbn in *.
  assert (G : forall x y z, x * x + y * y + z * z = 1 -> Rabs x <= 1 /\ Rabs y <= 1 /\ Rabs z <= 1) by (intros; repeat split; apply Rabs_le; nra).
  destruct (G _ _ _ R1) as [? [? ?]]. destruct (G _ _ _ R2) as [? [? ?]]. destruct (G _ _ _ R3) as [? [? ?]].
  repeat split; cbn [vx vy vz]; (eapply Rle_trans; [eapply Rabs_close; eassumption|lra]).
Qed.
Lemma close_trans : forall d e a b c, s_close d a b -> s_close e b c -> s_close (d + e) a c.
Proof.
  intros d e a b c [A1 [A2 A3]] [B1 [B2 B3]]. unfold s_close.
  assert (G : forall x y z, Rabs (x - y) <= d -> Rabs (y - z) <= e -> Rabs (x - z) <= d + e) by (intros x y z X Y; replace (x - z) with ((x - y) + (y - z)) by ring; eapply Rle_trans; [apply Rabs_triang|lra]).
  repeat split; eapply G; eauto.
Qed.
Lemma close_le : forall d e a b, s_close d a b -> d <= e -> s_close e a b.
Proof. intros d e a b [A [B C]] H. repeat split; lra. Qed.

(** ** corners of cylinders *)
Lemma sin_lip : forall a b, Rabs (sin a - sin b) <= Rabs (a - b).
Proof.
  intros a b. rewrite form4. rewrite !Rabs_mult, (Rabs_pos_eq 2) by lra. pose proof (cos_1 ((a + b) / 2)) as C. pose proof (Rabs_pos (cos ((a + b) / 2))).
  assert (S : Rabs (sin ((a - b) / 2)) <= Rabs ((a - b) / 2)).
  { assert (G : forall x, 0 <= x -> Rabs (sin x) <= x).
    { intros x X. destruct (Req_dec x 0) as [->|]; [rewrite sin_0, Rabs_R0; lra|]. destruct (Rle_dec x 1).
      - rewrite Rabs_pos_eq; [left; apply sin_lt_x; lra|]. apply sin_ge_0; [lra|]. pose proof PI2_3_2. lra.
      - pose proof (sin_1 x). lra. }
    destruct (Rle_dec 0 ((a - b) / 2)); [rewrite (Rabs_pos_eq ((a - b) / 2)) by auto; apply G; auto|].
    rewrite (Rabs_left ((a - b) / 2)) by lra. rewrite <- (Rabs_Ropp (sin _)), <- sin_neg. apply G. lra. }
  assert (Rabs ((a - b) / 2) = Rabs (a - b) / 2) by (unfold Rdiv; rewrite Rabs_mult, (Rabs_pos_eq (/ 2)) by lra; reflexivity).
  pose proof (Rabs_pos (sin ((a - b) / 2))). nra.
Qed.
Lemma cos_lip : forall a b, Rabs (cos a - cos b) <= Rabs (a - b).
Proof. intros a b. rewrite !cos_sin. eapply Rle_trans; [apply sin_lip|]. right. f_equal. ring. Qed.
Lemma corner_angle : forall i n : nat, (i < n)%nat -> (N.of_nat n <= 2 ^ 31)%N ->
  near (32 * uro) (ndiv (nmul (nmul n2 f_pi) (nofZ (Z.of_N (N.of_nat i)))) (nofZ (Z.of_N (N.of_nat n)))) (2 * PI * INR i / INR n).
Proof.
  intros i n I N. rewrite !nat_N_Z, !INR_IZR_INZ. destruct f_pi_near as [FP HP]. destruct (ofZ_R 2 eq_refl) as [F2 E2].
  destruct (ofZ_R (Z.of_nat i)) as [FI EI]; [change (2 ^ 31)%N with 2147483648%N in N; change (2 ^ 53)%Z with 9007199254740992%Z; lia|].
  destruct (ofZ_R (Z.of_nat n)) as [FN EN]; [change (2 ^ 31)%N with 2147483648%N in N; change (2 ^ 53)%Z with 9007199254740992%Z; lia|].
  assert (IB : 0 <= IZR (Z.of_nat i)) by (apply IZR_le; lia). assert (NB : 1 <= IZR (Z.of_nat n) <= 2147483648) by (change (2 ^ 31)%N with 2147483648%N in N; split; apply IZR_le; lia).
  assert (IN : IZR (Z.of_nat i) <= IZR (Z.of_nat n)) by (apply IZR_le; lia).
  set (x := IZR (Z.of_nat i)) in *. set (y := IZR (Z.of_nat n)) in *. pose proof uro_pos as U. pose proof u_small as US. pose proof eta_tiny as ET. assert (ET0 : 0 < eta) by apply bpow_gt_0.
  pose proof PI_RGT_0 as PP. pose proof PI_4 as P4. set (P := B2R f_pi) in *. apply Rabs_le_inv in HP.
  destruct (mul_R n2 f_pi F2 FP) as [F3 E3]; [unfold n2; rewrite E2; fold P; apply big100, Rabs_le; lra|]. unfold n2 in E3 at 2. rewrite E2 in E3. fold P in E3.
  pose proof (rnd_err (2 * P)) as G3. rewrite <- E3 in G3. set (Q := nmul n2 f_pi) in *.
  assert (Q0 : Rabs (B2R Q - 2 * PI) <= 13 * uro).
  { assert (uro * Rabs (2 * P) <= uro * (88 / 10)) by (apply uro_le, Rabs_le; lra). apply Rabs_le. apply Rabs_le_inv in G3. lra. }
  destruct (mul_R Q (nofZ (Z.of_nat i)) F3 FI) as [F4 E4].
  { rewrite EI. fold x. apply Rle_trans with (9 * 2147483648); [eapply Rle_trans; [apply (Rabs_mult_le _ _ 9 2147483648); apply Rabs_le; apply Rabs_le_inv in Q0; lra|lra]|].
    apply Rle_trans with (bpow radix2 100); [change (bpow radix2 100) with (IZR (2 ^ 100)); cbn; lra|apply bpow_le; lia]. }
  rewrite EI in E4. fold x in E4. pose proof (rnd_err (B2R Q * x)) as G4. rewrite <- E4 in G4. set (W := nmul Q (nofZ (Z.of_nat i))) in *.
  assert (W0 : Rabs (B2R W - 2 * PI * x) <= 22 * uro * y).
  { replace (B2R W - 2 * PI * x) with ((B2R W - B2R Q * x) + (B2R Q - 2 * PI) * x) by ring. eapply Rle_trans; [apply Rabs_triang|].
    assert (Rabs ((B2R Q - 2 * PI) * x) <= 13 * uro * y) by (apply Rabs_mult_le; auto; apply Rabs_le; lra).
    assert (uro * Rabs (B2R Q * x) <= uro * (81 / 10 * y)) by (apply uro_le, Rabs_mult_le; apply Rabs_le; apply Rabs_le_inv in Q0; lra). nra. }
  assert (D : Rabs (B2R W / y - 2 * PI * x / y) <= 22 * uro).
  { replace (B2R W / y - 2 * PI * x / y) with ((B2R W - 2 * PI * x) / y) by (field; lra). unfold Rdiv. rewrite Rabs_mult, (Rabs_pos_eq (/ y)) by (left; apply Rinv_0_lt_compat; lra).
    apply Rmult_le_reg_r with y; [lra|]. rewrite Rmult_assoc, Rinv_l, Rmult_1_r by lra. exact W0. }
  assert (T0 : 0 <= 2 * PI * x / y <= 8).
  { assert (XY : 0 <= x / y <= 1).
    { split; [apply Rmult_le_pos; [auto|left; apply Rinv_0_lt_compat; lra]|]. apply Rmult_le_reg_r with y; [lra|]. unfold Rdiv. rewrite Rmult_assoc, Rinv_l, Rmult_1_r by lra. lra. }
    replace (2 * PI * x / y) with (2 * PI * (x / y)) by (field; lra). nra. }
  assert (DB : Rabs (B2R W / y) <= 81 / 10) by (apply Rabs_le; apply Rabs_le_inv in D; lra).
  destruct (div_R W (nofZ (Z.of_nat n)) F4) as [F5 E5]; [rewrite EN; fold y; lra|rewrite EN; fold y; apply big100; lra|]. rewrite EN in E5. fold y in E5. split; auto.
  rewrite E5. pose proof (rnd_err (B2R W / y)) as G5. replace (rnd (B2R W / y) - 2 * PI * x / y) with ((rnd (B2R W / y) - B2R W / y) + (B2R W / y - 2 * PI * x / y)) by ring.
  eapply Rle_trans; [apply Rabs_triang|]. assert (uro * Rabs (B2R W / y) <= uro * (81 / 10)) by (apply uro_le; auto). lra.
Qed.
Lemma scaled_near : forall e (s : F64) S (r : F64), near e s S -> Rabs S <= 1 -> e <= / 1000 -> fin r = true -> Rabs (B2R r) <= big / 8 ->
  near ((e + 2 * uro) * Rabs (B2R r) + eta) (nmul s r) (S * B2R r).
Proof.
  intros e s S r [F H] S1 E FR B. pose proof (Rabs_close _ _ _ _ H S1) as SB. pose proof (Rabs_pos (B2R r)) as R0. pose proof uro_pos as U.
  assert (PB : Rabs (B2R s * B2R r) <= (1 + e) * Rabs (B2R r)) by (apply Rabs_mult_le; lra).
  destruct (mul_R s r F FR) as [FM EM]; [eapply Rle_trans; [exact PB|]; assert (0 <= e) by (pose proof (Rabs_pos (B2R s - S)); lra); nra|]. split; auto. rewrite EM.
  pose proof (rnd_err (B2R s * B2R r)) as G. replace (rnd (B2R s * B2R r) - S * B2R r) with ((rnd (B2R s * B2R r) - B2R s * B2R r) + (B2R s - S) * B2R r) by ring.
  eapply Rle_trans; [apply Rabs_triang|]. assert (Rabs ((B2R s - S) * B2R r) <= e * Rabs (B2R r)) by (apply Rabs_mult_le; lra).
  assert (UU : uro * Rabs (B2R s * B2R r) <= uro * ((1 + e) * Rabs (B2R r))) by (apply uro_le; auto).
  assert (uro * ((1 + e) * Rabs (B2R r)) <= uro * (2 * Rabs (B2R r))) by (apply uro_le; nra). nra.
Qed.
Lemma half_near : forall h : F64, fin h = true -> Rabs (B2R h) <= big / 8 -> near (uro * Rabs (B2R h) + eta) (ndiv h n2) (B2R h / 2).
Proof.
  intros h F B. destruct (ofZ_R 2 eq_refl) as [F2 E2]. pose proof (Rabs_pos (B2R h)) as H0. pose proof uro_pos.
  assert (HH : Rabs (B2R h / 2) = Rabs (B2R h) / 2) by (unfold Rdiv; rewrite Rabs_mult, (Rabs_pos_eq (/ 2)) by lra; reflexivity).
  unfold n2. destruct (div_R h (nofZ 2) F) as [FD ED]; [rewrite E2; lra|rewrite E2, HH; lra|]. split; auto. rewrite ED, E2. pose proof (rnd_err (B2R h / 2)) as G. rewrite HH in G. nra.
Qed.
Lemma nth_pairs : forall (A B : Type) (f g : A -> B) l i x, nth_error l i = Some x ->
  nth_error (flat_map (fun a => [f a; g a]) l) (2 * i) = Some (f x) /\ nth_error (flat_map (fun a => [f a; g a]) l) (2 * i + 1) = Some (g x).
Proof.
  induction l as [|a l IH]; intros i x H; [destruct i; discriminate|]. destruct i as [|i]; [injection H as ->; auto|].
  cbn [nth_error] in H. destruct (IH i x H) as [P Q]. replace (2 * S i)%nat with (S (S (2 * i))) by lia. replace (S (S (2 * i)) + 1)%nat with (S (S (2 * i + 1))) by lia. auto.
Qed.
