(** * Rounding errors of the projection round trip of a pixel *)
From Coq Require Import ZArith Reals Lra Lia Psatz.
From Flocq Require Import Core BinarySingleNaN.
From Verif Require Import Num MathTypes Mesh Depth SpecRound P_Tac P_Math P_Round.
Local Open Scope R_scope.
Local Notation fin := (is_finite (prec := 53) (emax := 1024)).
Local Notation b0 := (bpow radix2).

(** the chain of intermediate values over the reals, everything scaled back to pixels *)
Lemma pix_chain : forall x cx d w2 w3 w4 q r h, 0 <= h ->
  Rabs (d - (x - cx)) <= uro * Rabs (x - cx) ->
  Rabs (w2 - d) <= uro * Rabs d + h -> Rabs (w3 - w2) <= uro * Rabs w2 + h -> Rabs (w4 - w3) <= uro * Rabs w3 + h -> Rabs (q - w4) <= uro * Rabs w4 + h ->
  Rabs (r - (q + cx)) <= uro * Rabs (q + cx) ->
  Rabs (r - x) <= 7 * uro * (Rabs x + Rabs cx) + 5 * h.
Proof.
  intros x cx d w2 w3 w4 q r h H E1 E2 E3 E4 E5 E6. pose proof (Rabs_pos (x - cx)) as P0.
  assert (S : Rabs (x - cx) <= Rabs x + Rabs cx). { unfold Rminus. eapply Rle_trans; [apply Rabs_triang|]. rewrite Rabs_Ropp. lra. }
  set (s := Rabs x + Rabs cx) in *.
  assert (K : forall a b e, Rabs (a - b) <= e -> Rabs a <= Rabs b + e). { intros a b e L. apply (Rabs_close a b e); auto. lra. }
  assert (B1 := K _ _ _ E1). assert (B2 := K _ _ _ E2). assert (B3 := K _ _ _ E3). assert (B4 := K _ _ _ E4).
  assert (T : Rabs (q + cx - x) <= Rabs (q - w4) + Rabs (w4 - w3) + Rabs (w3 - w2) + Rabs (w2 - d) + Rabs (d - (x - cx))).
  { replace (q + cx - x) with ((q - w4) + ((w4 - w3) + ((w3 - w2) + ((w2 - d) + (d - (x - cx)))))) by ring.
    eapply Rle_trans; [apply Rabs_triang|]. eapply Rle_trans; [apply Rplus_le_compat_l, Rabs_triang|].
    eapply Rle_trans; [apply Rplus_le_compat_l, Rplus_le_compat_l, Rabs_triang|]. eapply Rle_trans; [apply Rplus_le_compat_l, Rplus_le_compat_l, Rplus_le_compat_l, Rabs_triang|]. lra. }
  assert (B5 : Rabs (q + cx) <= Rabs x + Rabs (q + cx - x)). { replace (q + cx) with (x + (q + cx - x)) at 1 by ring. apply Rabs_triang. }
  assert (XS : Rabs x <= s) by (unfold s; pose proof (Rabs_pos cx); lra).
  assert (F : Rabs (r - x) <= Rabs (r - (q + cx)) + Rabs (q + cx - x)). { replace (r - x) with ((r - (q + cx)) + (q + cx - x)) by ring. apply Rabs_triang. }
  unfold uro in *. clearbody s. lra.
Qed.

Lemma rb : forall v e, (-1000 <= e <= 1023)%Z -> Rabs v <= b0 e -> Rabs (rnd v) <= b0 e.
Proof.
  intros v e L H. unfold rnd. apply abs_round_le_generic; auto; [apply (fexp_correct 53 1024); exact prec64_gt0|apply valid_rnd_N|]. apply generic_format_bpow. unfold SpecFloat.fexp, SpecFloat.emin. lia.
Qed.
Lemma bp_mul : forall a b e f, Rabs a <= b0 e -> Rabs b <= b0 f -> Rabs (a * b) <= b0 (e + f).
Proof. intros a b e f A B. rewrite bpow_plus. apply Rabs_mult_le; auto. Qed.
Lemma bp_div : forall a b e f, Rabs a <= b0 e -> b0 (- f) <= b -> Rabs (a / b) <= b0 (e + f).
Proof.
  intros a b e f A B. assert (P : 0 < b) by (eapply Rlt_le_trans; [apply bpow_gt_0|exact B]). unfold Rdiv. apply bp_mul; auto. rewrite Rabs_right by (left; apply Rinv_0_lt_compat; exact P).
  replace (b0 f) with (/ b0 (- f)) by (rewrite <- bpow_opp; f_equal; lia). apply Rinv_le; auto. apply bpow_gt_0.
Qed.
Lemma bp_add : forall a b e, Rabs a <= b0 e -> Rabs b <= b0 e -> Rabs (a + b) <= b0 (e + 1).
Proof. intros a b e A B. rewrite bpow_plus. change (b0 1) with 2. eapply Rle_trans; [apply Rabs_triang|]. lra. Qed.
Lemma bp_up : forall a e f, Rabs a <= b0 e -> (e <= f)%Z -> Rabs a <= b0 f.
Proof. intros a e f A L. eapply Rle_trans; [exact A|]. apply bpow_le. exact L. Qed.
Lemma add0 : forall a t : F64, fin a = true -> fin t = true -> B2R t = 0 -> Rabs (B2R a) <= b0 1000 -> fin (nadd a t) = true /\ B2R (nadd a t) = B2R a.
Proof.
  intros a t A T Z B. destruct (add_R a t A T) as [F E]; [rewrite Z, Rplus_0_r; apply (bp_up _ _ _ B); lia|]. split; auto. rewrite E, Z, Rplus_0_r. apply rnd_gen. apply gen_B2R.
Qed.

Section Axis.
  (** one axis: o is the identity for x and the negation for y *)
  Context (o : F64 -> F64) (s : R) (S1 : s = 1 \/ s = Ropp 1) (OF : forall a, fin a = true -> fin (o a) = true) (OV : forall a, fin a = true -> B2R (o a) = s * B2R a).
  Context (f dep c t : F64) (x : Z).
  Context (Ff : fin f = true) (Fd : fin dep = true) (Fc : fin c = true) (Ft : fin t = true) (T0 : B2R t = 0) (X : (Z.abs x <= 2147483648)%Z).
  Context (C : Rabs (B2R c) <= b0 100) (f1 : b0 (- (100)) <= B2R f) (f2 : B2R f <= b0 100) (d1 : b0 (- (100)) <= B2R dep) (d2 : B2R dep <= b0 100).
  Definition axis_r : F64 :=
    nadd (ndiv (nadd (nmul f (o (nmul (ndiv (o (nsub (nofZ x) (nadd c t))) f) dep))) t) (nopp (nmul (nofZ (-1)) dep))) c.
  Lemma axis_close : fin axis_r = true /\ Rabs (B2R axis_r - IZR x) <= 7 * uro * (Rabs (IZR x) + Rabs (B2R c)) + 5 * b0 (-800).
  Proof.
    assert (SA : Rabs s = 1) by (destruct S1 as [-> | ->]; [rewrite Rabs_right; lra|rewrite Rabs_left; lra]). assert (SS : s * s = 1) by (destruct S1 as [-> | ->]; lra).
    assert (FP : 0 < B2R f) by (eapply Rlt_le_trans; [apply bpow_gt_0|exact f1]). assert (DP : 0 < B2R dep) by (eapply Rlt_le_trans; [apply bpow_gt_0|exact d1]).
    assert (fA : Rabs (B2R f) <= b0 100) by (rewrite Rabs_right by lra; auto). assert (dA : Rabs (B2R dep) <= b0 100) by (rewrite Rabs_right by lra; auto).
    destruct (ofZ_R x ltac:(lia)) as [XF XV]. destruct (add0 c t Fc Ft T0 ltac:(apply (bp_up _ _ _ C); lia)) as [CF CV].
    assert (XA : Rabs (IZR x) <= b0 100). { rewrite <- abs_IZR. apply Rle_trans with (b0 31); [|apply bpow_le; lia]. change (b0 31) with (IZR 2147483648). apply IZR_le. lia. }
    set (dd := nsub (nofZ x) (nadd c t)).
    assert (DX : Rabs (IZR x - B2R c) <= b0 101). { apply (bp_add _ (- B2R c) 100); auto. rewrite Rabs_Ropp. auto. }
    destruct (sub_R (nofZ x) (nadd c t) XF CF) as [DF DV]; [rewrite XV, CV; apply (bp_up _ _ _ DX); lia|]. fold dd in DF, DV. rewrite XV, CV in DV.
    assert (DB : Rabs (B2R dd) <= b0 101) by (rewrite DV; apply rb; [lia|auto]).
    assert (E1 : Rabs (B2R dd - (IZR x - B2R c)) <= uro * Rabs (IZR x - B2R c)).
    { rewrite DV. unfold Rminus at 2 3 4. apply rnd_plus; [rewrite <- XV; apply gen_B2R|]. rewrite <- B2R_Bopp. apply gen_B2R. }
    assert (OB : forall a e, fin a = true -> Rabs (B2R a) <= b0 e -> Rabs (B2R (o a)) <= b0 e). { intros a e A B. rewrite OV by auto. rewrite Rabs_mult, SA, Rmult_1_l. auto. }
    destruct (div_R (o dd) f (OF _ DF) ltac:(lra)) as [XF1 XV1]; [apply (bp_up _ (101 + 100)); [apply bp_div; auto|lia]|]. set (X1 := ndiv (o dd) f) in *.
    assert (XB1 : Rabs (B2R X1) <= b0 201) by (rewrite XV1; apply rb; [lia|apply (bp_div _ _ 101 100); auto]).
    destruct (mul_R X1 dep XF1 Fd) as [XF2 XV2]; [apply (bp_up _ (201 + 100)); [apply bp_mul; auto|lia]|]. set (X2 := nmul X1 dep) in *.
    assert (XB2 : Rabs (B2R X2) <= b0 301) by (rewrite XV2; apply rb; [lia|apply (bp_mul _ _ 201 100); auto]).
    destruct (mul_R f (o X2) Ff (OF _ XF2)) as [MF MV]; [apply (bp_up _ (100 + 301)); [apply bp_mul; auto|lia]|]. set (m := nmul f (o X2)) in *.
    assert (MB : Rabs (B2R m) <= b0 401) by (rewrite MV; apply rb; [lia|apply (bp_mul _ _ 100 301); auto]).
    destruct (add0 m t MF Ft T0 ltac:(apply (bp_up _ _ _ MB); lia)) as [MF' MV'].
    assert (ZZ : fin (nopp (nmul (nofZ (-1)) dep)) = true /\ B2R (nopp (nmul (nofZ (-1)) dep)) = B2R dep).
    { destruct (ofZ_R (-1) ltac:(lia)) as [NF NV]. destruct (mul_R (nofZ (-1)) dep NF Fd) as [PF PV]; [rewrite NV; replace (-1 * B2R dep) with (- B2R dep) by ring; rewrite Rabs_Ropp; apply (bp_up _ _ _ dA); lia|].
      destruct (opp_R _ PF) as [QF QV]. split; auto. rewrite QV, PV, NV. replace (-1 * B2R dep) with (B2R (Bopp dep)) by (rewrite B2R_Bopp; ring). rewrite rnd_gen by apply gen_B2R. rewrite B2R_Bopp. ring. }
    destruct ZZ as [ZF ZV]. set (z := nopp (nmul (nofZ (-1)) dep)) in *.
    destruct (div_R (nadd m t) z MF' ltac:(lra)) as [QF QV]; [rewrite MV', ZV; apply (bp_up _ (401 + 100)); [apply bp_div; auto|lia]|]. rewrite MV', ZV in QV. set (q := ndiv (nadd m t) z) in *.
    assert (QB : Rabs (B2R q) <= b0 501) by (rewrite QV; apply rb; [lia|apply (bp_div _ _ 401 100); auto]).
    assert (RB : Rabs (B2R q + B2R c) <= b0 502) by (apply (bp_add _ _ 501); auto; apply (bp_up _ _ _ C); lia).
    destruct (add_R q c QF Fc) as [RF RV]; [apply (bp_up _ _ _ RB); lia|].
    assert (AR : axis_r = nadd q c) by reflexivity. rewrite AR. split; auto.
    assert (HE : forall k, (k <= 200)%Z -> b0 k * eta <= b0 (-800)). { intros k L. unfold eta. rewrite <- bpow_plus. apply bpow_le. lia. }
    apply (pix_chain (IZR x) (B2R c) (B2R dd) (s * B2R X1 * B2R f) (s * B2R X2 * B2R f / B2R dep) (B2R m / B2R dep) (B2R q) (B2R (nadd q c)) (b0 (-800))).
    - left. apply bpow_gt_0.
    - exact E1.
    - rewrite XV1. rewrite OV by auto. pose proof (rnd_err (s * B2R dd / B2R f)) as E. set (r := rnd (s * B2R dd / B2R f)) in *.
      replace (s * r * B2R f - B2R dd) with (s * B2R f * (r - s * B2R dd / B2R f)). 2:{ transitivity (s * r * B2R f - s * s * B2R dd); [field; lra|rewrite SS; ring]. }
      rewrite !Rabs_mult, SA, Rmult_1_l, (Rabs_right (B2R f)) by lra.
      eapply Rle_trans; [apply Rmult_le_compat_l; [lra|exact E]|]. unfold Rdiv. rewrite !Rabs_mult, SA, Rmult_1_l, (Rabs_right (/ B2R f)) by (left; apply Rinv_0_lt_compat; lra).
      replace (B2R f * (uro * (Rabs (B2R dd) * / B2R f) + eta)) with (uro * Rabs (B2R dd) + B2R f * eta) by (field; lra).
      apply Rplus_le_compat_l. eapply Rle_trans; [apply Rmult_le_compat_r; [left; apply eta_pos|exact f2]|]. apply HE. lia.
    - rewrite XV2. pose proof (rnd_err (B2R X1 * B2R dep)) as E. set (r := rnd (B2R X1 * B2R dep)) in *.
      replace (s * r * B2R f / B2R dep - s * B2R X1 * B2R f) with (s * (B2R f * / B2R dep) * (r - B2R X1 * B2R dep)) by (field; lra).
      assert (G : 0 < B2R f * / B2R dep) by (apply Rmult_lt_0_compat; [lra|apply Rinv_0_lt_compat; lra]).
      rewrite !(Rabs_mult (s * _)), (Rabs_mult s), SA, Rmult_1_l, (Rabs_right (B2R f * / B2R dep)) by lra.
      eapply Rle_trans; [apply Rmult_le_compat_l; [lra|exact E]|]. rewrite !Rabs_mult, SA, Rmult_1_l, (Rabs_right (B2R f)), (Rabs_right (B2R dep)) by lra.
      replace (B2R f * / B2R dep * (uro * (Rabs (B2R X1) * B2R dep) + eta)) with (uro * (Rabs (B2R X1) * B2R f) + B2R f * / B2R dep * eta) by (field; lra).
      apply Rplus_le_compat_l. eapply Rle_trans; [apply Rmult_le_compat_r; [left; apply eta_pos|]|apply (HE (100 + 100)%Z); lia]. eapply Rle_trans; [apply Rle_abs|]. apply (bp_div _ _ 100 100); auto.
    - rewrite MV. rewrite OV by auto. pose proof (rnd_err (B2R f * (s * B2R X2))) as E. set (r := rnd (B2R f * (s * B2R X2))) in *.
      replace (r / B2R dep - s * B2R X2 * B2R f / B2R dep) with (/ B2R dep * (r - B2R f * (s * B2R X2))) by (field; lra).
      assert (G : 0 < / B2R dep) by (apply Rinv_0_lt_compat; lra).
      rewrite (Rabs_mult (/ _)), (Rabs_right (/ B2R dep)) by lra. eapply Rle_trans; [apply Rmult_le_compat_l; [lra|exact E]|].
      replace (s * B2R X2 * B2R f / B2R dep) with (/ B2R dep * (B2R f * (s * B2R X2))) by (field; lra). rewrite (Rabs_mult (/ _)), (Rabs_right (/ B2R dep)) by lra.
      replace (/ B2R dep * (uro * Rabs (B2R f * (s * B2R X2)) + eta)) with (uro * (/ B2R dep * Rabs (B2R f * (s * B2R X2))) + / B2R dep * eta) by ring.
      apply Rplus_le_compat_l. eapply Rle_trans; [apply Rmult_le_compat_r; [left; apply eta_pos|]|apply (HE (0 + 100)%Z); lia].
      replace (/ B2R dep) with (1 / B2R dep) by (field; lra). eapply Rle_trans; [apply Rle_abs|]. apply (bp_div 1 _ 0 100); auto. change (b0 0) with 1. rewrite Rabs_right; lra.
    - rewrite QV. eapply Rle_trans; [apply rnd_err|]. apply Rplus_le_compat_l. rewrite <- (Rmult_1_l eta). change 1 with (b0 0). apply HE. lia.
    - rewrite RV. apply rnd_plus; apply gen_B2R.
  Qed.
End Axis.
