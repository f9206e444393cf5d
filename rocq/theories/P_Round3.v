(** * Rounding errors of the conversion of a quaternion to a matrix *)
From Coq Require Import ZArith Bool Lia Reals Lra Psatz.
From Flocq Require Import Core BinarySingleNaN.
From Verif Require Import Num MathTypes Spec SpecRound P_Math P_Rot P_Round P_Round2.
Local Open Scope R_scope.
Local Notation fin := (is_finite (prec := 53) (emax := 1024)).

(** scales between 2^-900 and 2^902: no overflow, underflow is negligible *)
Definition scale (X : R) : Prop := bpow radix2 (-900) <= X <= bpow radix2 902.
Lemma scale_eta : forall X, scale X -> eta <= uro * X / 1000.
Proof.
  intros X [H _]. unfold eta. change (-1075)%Z with (-175 + -900)%Z. rewrite bpow_plus. pose proof (bpow_gt_0 radix2 (-900)).
  apply Rle_trans with (uro / 1000 * bpow radix2 (-900)).
  - apply Rmult_le_compat_r; [lra|]. unfold uro. cbn. lra.
  - replace (uro * X / 1000) with (uro / 1000 * X) by field. apply Rmult_le_compat_l; [unfold uro; lra|auto].
Qed.
Lemma scale_big : forall X, scale X -> X <= big / 1024.
Proof.
  intros X [_ H]. eapply Rle_trans; [exact H|]. unfold big. change 1023%Z with (1013 + 10)%Z. rewrite bpow_plus. change (bpow radix2 10) with 1024.
  replace (bpow radix2 1013 * 1024 / 1024) with (bpow radix2 1013) by field. apply bpow_le. lia.
Qed.
Lemma scale_pos : forall X, scale X -> 0 < X.
Proof. intros X [H _]. eapply Rlt_le_trans; [apply bpow_gt_0|exact H]. Qed.

(** product of a number with an approximation *)
Lemma mul_close : forall (x y : F64) y0 A Y E, fin x = true -> fin y = true -> Rabs (B2R x) <= A -> Rabs (B2R y - y0) <= E -> Rabs y0 <= Y -> A * (Y + E) <= big ->
  fin (nmul x y) = true /\ Rabs (B2R (nmul x y) - B2R x * y0) <= A * E + uro * (A * (Y + E)) + eta.
Proof.
  intros x y y0 A Y E X FY HA HE HY B. assert (HB := Rabs_close _ _ _ _ HE HY). destruct (mul_b x y A (Y + E) X FY HA HB B) as [F P]. split; auto.
  replace (_ - _) with ((B2R (nmul x y) - B2R x * B2R y) + B2R x * (B2R y - y0)) by ring.
  eapply Rle_trans; [apply Rabs_plus_le; [exact P|apply Rabs_mult_le; [exact HA|exact HE]]|]. lra.
Qed.
(** sum of two approximations *)
Lemma add_close : forall (x y : F64) x0 y0 A E Y D, fin x = true -> fin y = true -> Rabs (B2R x - x0) <= E -> Rabs x0 <= A -> Rabs (B2R y - y0) <= D -> Rabs y0 <= Y ->
  A + E + (Y + D) <= big ->
  fin (nadd x y) = true /\ Rabs (B2R (nadd x y) - (x0 + y0)) <= E + D + uro * (A + E + (Y + D)).
Proof.
  intros x y x0 y0 A E Y D X FY HE HA HD HY B. assert (H1 := Rabs_close _ _ _ _ HE HA). assert (H2 := Rabs_close _ _ _ _ HD HY).
  destruct (add_b x y _ _ X FY H1 H2 B) as [F P]. split; auto.
  replace (_ - _) with ((B2R (nadd x y) - (B2R x + B2R y)) + ((B2R x - x0) + (B2R y - y0))) by ring.
  eapply Rle_trans; [apply Rabs_plus_le; [exact P|apply Rabs_plus_le; [exact HE|exact HD]]|]. lra.
Qed.
Lemma sub_close : forall (x y : F64) x0 y0 A E Y D, fin x = true -> fin y = true -> Rabs (B2R x - x0) <= E -> Rabs x0 <= A -> Rabs (B2R y - y0) <= D -> Rabs y0 <= Y ->
  A + E + (Y + D) <= big ->
  fin (nsub x y) = true /\ Rabs (B2R (nsub x y) - (x0 - y0)) <= E + D + uro * (A + E + (Y + D)).
Proof.
  intros x y x0 y0 A E Y D X FY HE HA HD HY B. assert (H1 := Rabs_close _ _ _ _ HE HA). assert (H2 := Rabs_close _ _ _ _ HD HY).
  destruct (sub_b x y _ _ X FY H1 H2 B) as [F P]. split; auto.
  assert (HD' : Rabs (- (B2R y - y0)) <= D) by (rewrite Rabs_Ropp; auto).
  replace (_ - _) with ((B2R (nsub x y) - (B2R x - B2R y)) + ((B2R x - x0) + - (B2R y - y0))) by ring.
  eapply Rle_trans; [apply Rabs_plus_le; [exact P|apply Rabs_plus_le; [exact HE|exact HD']]|]. lra.
Qed.
(** squares *)
Lemma sqr_b : forall (x : F64) L, fin x = true -> B2R x * B2R x <= L -> L <= big -> fin (nmul x x) = true /\ Rabs (B2R (nmul x x) - B2R x * B2R x) <= uro * (B2R x * B2R x) + eta.
Proof.
  intros x L X H B. assert (P : Rabs (B2R x * B2R x) = B2R x * B2R x) by (apply Rabs_right; nra).
  destruct (mul_R x x X X) as [F E]; [rewrite P; lra|]. split; auto. rewrite E. eapply Rle_trans; [apply rnd_err|]. rewrite P. lra.
Qed.

Section Quat.
  Context (q : quat F64) (r : R) (FQ : s_finq q) (Rpos : 0 < r) (RL : r * r = q_norm2 (rq q)).
  Context (S1 : scale (r * r)) (S2 : scale (2 / (r * r))) (S3 : scale (2 / r)).
  Let L := r * r.

  Lemma comps : Rabs (B2R (qx q)) <= r /\ Rabs (B2R (qy q)) <= r /\ Rabs (B2R (qz q)) <= r /\ Rabs (B2R (qw q)) <= r.
  Proof.
    unfold q_norm2, rq in RL. cbn [qx qy qz qw] in RL.
    assert (P : forall a, a ^ 2 <= r * r -> Rabs a <= r) by (intros a H; apply Rabs_le; split; nra).
    split; [|split; [|split]]; apply P; rewrite RL; nra.
  Qed.
  Lemma length2_b : fin (qlength2 q) = true /\ Rabs (B2R (qlength2 q) - L) <= 5 * uro * L.
  Proof.
    unfold qlength2, q_norm2, rq in *. cbn [qx qy qz qw] in RL. destruct FQ as [FX [FY [FZ FW]]]. pose proof (scale_eta _ S1) as EL. pose proof (scale_big _ S1) as BL. fold L in EL, BL.
    pose proof (scale_pos _ S1) as LP. fold L in LP. pose proof big_pos as BP. pose proof eta_pos as EP.
    set (X := B2R (qx q) * B2R (qx q)). set (Y := B2R (qy q) * B2R (qy q)). set (Z := B2R (qz q) * B2R (qz q)). set (W := B2R (qw q) * B2R (qw q)).
    assert (SUM : L = X + Y + Z + W) by (unfold L, X, Y, Z, W; rewrite RL; ring).
    assert (X0 : 0 <= X) by (unfold X; nra). assert (Y0 : 0 <= Y) by (unfold Y; nra). assert (Z0 : 0 <= Z) by (unfold Z; nra). assert (W0 : 0 <= W) by (unfold W; nra).
    destruct (sqr_b (qx q) L FX) as [GX HX]; [fold X; lra|lra|]. destruct (sqr_b (qy q) L FY) as [GY HY]; [fold Y; lra|lra|].
    destruct (sqr_b (qz q) L FZ) as [GZ HZ]; [fold Z; lra|lra|]. destruct (sqr_b (qw q) L FW) as [GW HW]; [fold W; lra|lra|].
    fold X in HX. fold Y in HY. fold Z in HZ. fold W in HW.
    assert (AX : Rabs X <= X) by (rewrite Rabs_right; lra). assert (AY : Rabs Y <= Y) by (rewrite Rabs_right; lra). assert (AZ : Rabs Z <= Z) by (rewrite Rabs_right; lra). assert (AW : Rabs W <= W) by (rewrite Rabs_right; lra).
    unfold uro in *.
    destruct (add_close _ _ _ _ _ _ _ _ GX GY HX AX HY AY) as [G1 H1]; [lra|].
    assert (A1 := Rabs_plus_le _ _ _ _ AX AY).
    destruct (add_close _ _ _ _ _ _ _ _ G1 GZ H1 A1 HZ AZ) as [G2 H2]; [unfold uro in *; lra|].
    assert (A2 := Rabs_plus_le _ _ _ _ A1 AZ).
    destruct (add_close _ _ _ _ _ _ _ _ G2 GW H2 A2 HW AW) as [G3 H3]; [unfold uro in *; lra|].
    split; [exact G3|]. rewrite SUM. eapply Rle_trans; [exact H3|]. unfold uro. rewrite SUM in EL. lra.
  Qed.
  Lemma two_b : fin (nofZ 2) = true /\ B2R (nofZ 2 : F64) = 2.
  Proof. apply ofZ_R. reflexivity. Qed.
  Lemma scale_b : let s := ndiv (nofZ 2) (qlength2 q) in fin s = true /\ Rabs (B2R s - 2 / L) <= 7 * uro * (2 / L).
  Proof.
    cbv zeta. destruct length2_b as [FD HD]. destruct two_b as [F2 E2]. pose proof (scale_pos _ S1) as LP. fold L in LP. pose proof (scale_pos _ S2) as KP. fold L in KP.
    pose proof (scale_eta _ S2) as EK. fold L in EK. pose proof (scale_big _ S2) as BK. fold L in BK. pose proof big_pos as BP.
    set (d := B2R (qlength2 q)) in *. apply Rabs_le_inv in HD. assert (DL : (1 - 5 * uro) * L <= d <= (1 + 5 * uro) * L) by lra.
    assert (DP : 0 < d) by (unfold uro in *; nra).
    (* 2/d - 2/L = (2/L) * (L - d)/d *)
    assert (Q : Rabs (2 / d - 2 / L) <= (5 * uro + / 1000 * uro) * (2 / L)).
    { replace (2 / d - 2 / L) with ((L - d) / d * (2 / L)) by (field; lra). apply Rabs_mult_le; [|rewrite Rabs_right; lra].
      unfold Rdiv. rewrite Rabs_mult, (Rabs_right (/ d)) by (left; apply Rinv_0_lt_compat; auto).
      apply (Rmult_le_reg_r d); auto. rewrite Rmult_assoc, Rinv_l, Rmult_1_r by lra. apply Rle_trans with (5 * uro * L); [apply Rabs_le; lra|].
      unfold uro in *. nra. }
    assert (AK : Rabs (2 / L) <= 2 / L) by (rewrite Rabs_right; lra).
    assert (AD := Rabs_close _ _ _ _ Q AK).
    destruct (div_R (nofZ 2) (qlength2 q)) as [F E]; [exact F2|fold d; lra| |].
    { rewrite E2. fold d. unfold uro in *. lra. }
    split; auto. rewrite E, E2. fold d. pose proof (rnd_err (2 / d)) as RE.
    replace (rnd (2 / d) - 2 / L) with ((rnd (2 / d) - 2 / d) + (2 / d - 2 / L)) by ring.
    eapply Rle_trans; [apply Rabs_plus_le; [exact RE|exact Q]|]. apply uro_le in AD. unfold uro in *. lra.
  Qed.
  (** a component times the scale *)
  Lemma xs_b : forall a : F64, fin a = true -> Rabs (B2R a) <= r ->
    let xs := nmul a (ndiv (nofZ 2) (qlength2 q)) in fin xs = true /\ Rabs (B2R xs - B2R a * (2 / L)) <= 9 * uro * (2 / r).
  Proof.
    intros a FA HA. cbv zeta. destruct scale_b as [FS HS]. pose proof (scale_pos _ S2) as KP. fold L in KP. pose proof (scale_pos _ S3) as HP.
    pose proof (scale_eta _ S3) as EH. pose proof (scale_big _ S3) as BH. pose proof big_pos as BP.
    assert (AK : Rabs (2 / L) <= 2 / L) by (rewrite Rabs_right; lra).
    assert (RK : r * (2 / L) = 2 / r) by (unfold L; field; lra).
    assert (RE : r * (7 * uro * (2 / L)) = 7 * uro * (2 / r)) by (rewrite <- RK; ring).
    assert (RS : r * (2 / L + 7 * uro * (2 / L)) = 2 / r + 7 * uro * (2 / r)) by (rewrite Rmult_plus_distr_l, RE, RK; reflexivity).
    destruct (mul_close a _ _ _ _ _ FA FS HA HS AK) as [F E]; [rewrite RS; unfold uro in *; lra|]. split; auto.
    eapply Rle_trans; [exact E|]. rewrite RS, RE. unfold uro in *. lra.
  Qed.
  (** the products *)
  Lemma prod_b : forall a b : F64, fin a = true -> Rabs (B2R a) <= r -> fin b = true -> Rabs (B2R b) <= r ->
    let p := nmul a (nmul b (ndiv (nofZ 2) (qlength2 q))) in
    fin p = true /\ Rabs (B2R p - B2R a * (B2R b * (2 / L))) <= 21 * uro /\ Rabs (B2R a * (B2R b * (2 / L))) <= 2.
  Proof.
    intros a b FA HA FB HB. cbv zeta. destruct (xs_b b FB HB) as [FX HX]. pose proof (scale_pos _ S3) as HP. pose proof big_pos as BP. pose proof eta_big as EB. pose proof eta_pos as EP.
    assert (RK : r * (2 / L) = 2 / r) by (unfold L; field; lra). assert (RH : r * (2 / r) = 2) by (field; lra).
    assert (AH : Rabs (B2R b * (2 / L)) <= 2 / r).
    { rewrite <- RK. apply Rabs_mult_le; auto. rewrite Rabs_right; [lra|]. pose proof (scale_pos _ S2) as KP. fold L in KP. lra. }
    assert (RE : r * (9 * uro * (2 / r)) = 18 * uro) by (replace (r * (9 * uro * (2 / r))) with (9 * uro * (r * (2 / r))) by ring; rewrite RH; ring).
    assert (RS : r * (2 / r + 9 * uro * (2 / r)) = 2 + 18 * uro) by (rewrite Rmult_plus_distr_l, RE, RH; reflexivity).
    assert (B1 : 1024 <= big) by (unfold big; change 1024 with (bpow radix2 10); apply bpow_le; lia).
    assert (E1 : eta <= uro / 1000). { pose proof (scale_eta 1) as X. unfold scale in X. change 1 with (bpow radix2 0) in X at 1 2. assert (eta <= uro * 1 / 1000) by (apply X; split; apply bpow_le; lia). lra. }
    destruct (mul_close a _ _ _ _ _ FA FX HA HX AH) as [F E]; [rewrite RS; unfold uro in *; lra|]. split; auto. split.
    - eapply Rle_trans; [exact E|]. rewrite RS, RE. unfold uro in *. lra.
    - apply Rle_trans with (r * (2 / r)); [apply Rabs_mult_le; auto|lra].
  Qed.
  Lemma diff_b : forall x y : F64, forall x0 y0, fin x = true -> fin y = true -> Rabs (B2R x - x0) <= 21 * uro -> Rabs x0 <= 2 -> Rabs (B2R y - y0) <= 21 * uro -> Rabs y0 <= 2 ->
    (fin (nsub x y) = true /\ Rabs (B2R (nsub x y) - (x0 - y0)) <= 48 * uro) /\ (fin (nadd x y) = true /\ Rabs (B2R (nadd x y) - (x0 + y0)) <= 48 * uro).
  Proof.
    intros x y x0 y0 FX FY EX HX EY HY.
    assert (B1 : 1024 <= big) by (unfold big; change 1024 with (bpow radix2 10); apply bpow_le; lia).
    destruct (sub_close x y x0 y0 _ _ _ _ FX FY EX HX EY HY) as [F E]; [unfold uro; lra|].
    destruct (add_close x y x0 y0 _ _ _ _ FX FY EX HX EY HY) as [G D]; [unfold uro; lra|].
    split; split; auto; (eapply Rle_trans; [eassumption|]); unfold uro; lra.
  Qed.
  Lemma one_b : forall x y : F64, forall x0 y0, fin x = true -> fin y = true -> Rabs (B2R x - x0) <= 21 * uro -> Rabs x0 <= 2 -> Rabs (B2R y - y0) <= 21 * uro -> Rabs y0 <= 2 ->
    fin (nsub (nofZ 1) (nadd x y)) = true /\ Rabs (B2R (nsub (nofZ 1) (nadd x y)) - (1 - (x0 + y0))) <= 64 * uro.
  Proof.
    intros x y x0 y0 FX FY EX HX EY HY. destruct (diff_b x y x0 y0 FX FY EX HX EY HY) as [_ [F E]]. destruct (ofZ_R 1) as [F1 E1]; [reflexivity|].
    assert (B1 : 1024 <= big) by (unfold big; change 1024 with (bpow radix2 10); apply bpow_le; lia).
    assert (Z1 : Rabs (B2R (nofZ 1 : F64) - 1) <= 0) by (rewrite E1, Rminus_diag_eq, Rabs_R0; lra).
    assert (Z2 : Rabs 1 <= 1) by (rewrite Rabs_R1; lra).
    destruct (sub_close _ _ _ _ _ _ _ _ F1 F Z1 Z2 E (Rabs_plus_le _ _ _ _ HX HY)) as [G D]; [unfold uro; lra|].
    split; auto. eapply Rle_trans; [exact D|]. unfold uro. lra.
  Qed.
End Quat.

Lemma qmat_eq : forall p : quat R, q_norm2 p <> 0 -> s_qmat p = m3setRotation p.
Proof.
  intros p H. unfold s_qmat, s_conj. 
  destruct (setRotation_apply p (V3 1 0 0) H) as [_ E1]. destruct (setRotation_apply p (V3 0 1 0) H) as [_ E2]. destruct (setRotation_apply p (V3 0 0 1) H) as [_ E3].
  cbv zeta in *. rewrite <- E1, <- E2, <- E3. destruct (m3setRotation p). cbn. f_equal; ring.
Qed.

Lemma norm_scales : forall q, s_range q -> exists r, 0 < r /\ r * r = q_norm2 (rq q) /\ scale (r * r) /\ scale (2 / (r * r)) /\ scale (2 / r).
Proof.
  intros q [H1 H2]. set (L := q_norm2 (rq q)) in *. exists (sqrt L). pose proof (bpow_gt_0 radix2 (-900)) as P9.
  assert (LP : 0 < L) by lra. assert (RP := sqrt_lt_R0 L LP). assert (RR : sqrt L * sqrt L = L) by (apply sqrt_sqrt; lra).
  assert (E1 : sqrt (bpow radix2 (-900)) = bpow radix2 (-450)).
  { change (-900)%Z with (-450 + -450)%Z. rewrite bpow_plus. apply sqrt_square. apply bpow_ge_0. }
  assert (E2 : sqrt (bpow radix2 900) = bpow radix2 450).
  { change 900%Z with (450 + 450)%Z. rewrite bpow_plus. apply sqrt_square. apply bpow_ge_0. }
  assert (B1 : bpow radix2 (-450) <= sqrt L) by (rewrite <- E1; apply sqrt_le_1; lra).
  assert (B2 : sqrt L <= bpow radix2 450) by (rewrite <- E2; apply sqrt_le_1; lra).
  assert (D : forall x a b, (0 <= a)%Z -> (0 <= b)%Z -> (a + 1 <= 902)%Z -> (b <= 901)%Z -> bpow radix2 (- a) <= x <= bpow radix2 b -> scale (2 / x)).
  { intros x a b A0 B0 A1 B3 [X1 X2]. pose proof (bpow_gt_0 radix2 (- a)). assert (XP : 0 < x) by lra. split.
    - apply (Rmult_le_reg_r x); auto. unfold Rdiv. rewrite Rmult_assoc, Rinv_l, Rmult_1_r by lra.
      apply Rle_trans with (bpow radix2 (-900) * bpow radix2 b); [apply Rmult_le_compat_l; [lra|auto]|]. rewrite <- bpow_plus. change 2 with (bpow radix2 1). apply bpow_le. lia.
    - apply (Rmult_le_reg_r x); auto. unfold Rdiv. rewrite Rmult_assoc, Rinv_l, Rmult_1_r by lra.
      apply Rle_trans with (bpow radix2 902 * bpow radix2 (- a)); [|apply Rmult_le_compat_l; [apply bpow_ge_0|auto]]. rewrite <- bpow_plus. change 2 with (bpow radix2 1). apply bpow_le. lia. }
  split; auto. split; auto. rewrite RR. split; [|split].
  - split; auto. eapply Rle_trans; [exact H2|]. apply bpow_le. lia.
  - apply (D L 900%Z 900%Z); try lia. split; auto.
  - apply (D (sqrt L) 450%Z 450%Z); try lia. split; auto.
Qed.

Lemma setRotation_b : forall q : quat F64, s_finq q -> s_range q ->
  s_finm (m3setRotation q) /\ s_closem (64 * uro) (rm (m3setRotation q)) (s_qmat (rq q)).
Proof.
  intros q FQ N. destruct (norm_scales q N) as [r [RP [RL [S1 [S2 S3]]]]].
  assert (NZ : q_norm2 (rq q) <> 0) by (rewrite <- RL; nra). rewrite qmat_eq by auto.
  destruct (comps q r RP RL) as [HX [HY [HZ HW]]]. assert (FQ' := FQ). destruct FQ' as [FX [FY [FZ FW]]]. unfold s_fin in FX, FY, FZ, FW.
  pose proof (prod_b q r FQ RP RL S1 S2 S3) as PB. cbv zeta in PB.
  assert (EL : qlength2 (rq q) = r * r). { rewrite RL. unfold qlength2, q_norm2. cbn [nadd nmul NumR]. ring. }
  set (s := ndiv (nofZ 2) (qlength2 q)) in *.
  destruct (PB (qw q) (qx q) FW HW FX HX) as [F_wx [H_wx B_wx]]. destruct (PB (qw q) (qy q) FW HW FY HY) as [F_wy [H_wy B_wy]]. destruct (PB (qw q) (qz q) FW HW FZ HZ) as [F_wz [H_wz B_wz]].
  destruct (PB (qx q) (qx q) FX HX FX HX) as [F_xx [H_xx B_xx]]. destruct (PB (qx q) (qy q) FX HX FY HY) as [F_xy [H_xy B_xy]]. destruct (PB (qx q) (qz q) FX HX FZ HZ) as [F_xz [H_xz B_xz]].
  destruct (PB (qy q) (qy q) FY HY FY HY) as [F_yy [H_yy B_yy]]. destruct (PB (qy q) (qz q) FY HY FZ HZ) as [F_yz [H_yz B_yz]]. destruct (PB (qz q) (qz q) FZ HZ FZ HZ) as [F_zz [H_zz B_zz]].
  clear PB.
  destruct (one_b _ _ _ _ F_yy F_zz H_yy B_yy H_zz B_zz) as [G1 K1].
  destruct (diff_b _ _ _ _ F_xy F_wz H_xy B_xy H_wz B_wz) as [[G2 K2] [G4 K4]].
  destruct (diff_b _ _ _ _ F_xz F_wy H_xz B_xz H_wy B_wy) as [[G7 K7] [G3 K3]].
  destruct (one_b _ _ _ _ F_xx F_zz H_xx B_xx H_zz B_zz) as [G5 K5].
  destruct (diff_b _ _ _ _ F_yz F_wx H_yz B_yz H_wx B_wx) as [[G6 K6] [G8 K8]].
  destruct (one_b _ _ _ _ F_xx F_yy H_xx B_xx H_yy B_yy) as [G9 K9].
  assert (W : forall x, Rabs x <= 48 * uro -> Rabs x <= 64 * uro) by (intros x H; unfold uro in *; lra).
  unfold m3setRotation. cbv zeta. rewrite EL. unfold n1, n2. fold s.
  unfold s_finm, s_closem, s_close, rm, rq, s_fin. cbn [vx vy vz MathTypes.mxx MathTypes.mxy MathTypes.mxz MathTypes.myx MathTypes.myy MathTypes.myz MathTypes.mzx MathTypes.mzy MathTypes.mzz qx qy qz qw].
  split; [auto 12|].
  change (@nofZ R NumR 2) with 2. change (@nofZ R NumR 1) with 1.
  split; [|split]; (split; [|split]); first [assumption|apply W; assumption].
Qed.

(** ** Composition *)
Lemma mprod_b : forall (a b : mat3 F64) A B, s_finm a -> s_finm b -> s_boundm A (rm a) -> s_boundm B (rm b) -> A * B <= big / 8 ->
  s_finm (m3mul a b) /\ s_closem (9 * uro * (A * B) + 6 * eta) (rm (m3mul a b)) (s_mprod (rm a) (rm b)).
Proof.
  intros a b A B FA FB BA BB H. unfold s_finm, s_fin, s_boundm, s_bound in *. destruct a as [a1 a2 a3 a4 a5 a6 a7 a8 a9], b as [b1 b2 b3 b4 b5 b6 b7 b8 b9].
  unfold rm in *. cbn [MathTypes.mxx MathTypes.mxy MathTypes.mxz MathTypes.myx MathTypes.myy MathTypes.myz MathTypes.mzx MathTypes.mzy MathTypes.mzz vx vy vz] in *.
  destruct FA as [[X1 [X2 X3]] [[Y1 [Y2 Y3]] [Z1 [Z2 Z3]]]], FB as [[P1 [P2 P3]] [[Q1 [Q2 Q3]] [R1 [R2 R3]]]].
  destruct BA as [[U1 [U2 U3]] [[V1 [V2 V3]] [W1 [W2 W3]]]], BB as [[K1 [K2 K3]] [[L1 [L2 L3]] [N1 [N2 N3]]]].
  unfold m3mul, s_closem, s_close, s_mprod, s_dot, col1, col2, col3.
  cbn [MathTypes.mxx MathTypes.mxy MathTypes.mxz MathTypes.myx MathTypes.myy MathTypes.myz MathTypes.mzx MathTypes.mzy MathTypes.mzz vx vy vz].
  split; split_all; match goal with
  | |- _ = true => eapply (fun a1 a2 a3 v1 v2 v3 F1 F2 F3 G1 G2 G3 A1 A2 A3 M1 M2 M3 => proj1 (dot3_b a1 a2 a3 v1 v2 v3 A B F1 F2 F3 G1 G2 G3 A1 A2 A3 M1 M2 M3 H)); eassumption
  | |- _ => eapply (fun a1 a2 a3 v1 v2 v3 F1 F2 F3 G1 G2 G3 A1 A2 A3 M1 M2 M3 => proj2 (dot3_b a1 a2 a3 v1 v2 v3 A B F1 F2 F3 G1 G2 G3 A1 A2 A3 M1 M2 M3 H)); assumption end.
Qed.

(** ** Nearly orthonormal matrices *)
Lemma entry1 : forall a b c : R, a * a + b * b + c * c = 1 -> Rabs a <= 1.
Proof. intros. apply Rabs_le. split; nra. Qed.
Lemma near_dot : forall a b c x y z a' b' c' x' y' z' e, Rabs a' <= 1 -> Rabs b' <= 1 -> Rabs c' <= 1 -> Rabs x' <= 1 -> Rabs y' <= 1 -> Rabs z' <= 1 ->
  Rabs (a - a') <= e -> Rabs (b - b') <= e -> Rabs (c - c') <= e -> Rabs (x - x') <= e -> Rabs (y - y') <= e -> Rabs (z - z') <= e -> e <= / 1000 ->
  Rabs (a * x + b * y + c * z - (a' * x' + b' * y' + c' * z')) <= 7 * e.
Proof.
  intros a b c x y z a' b' c' x' y' z' e A B C X Y Z EA EB EC EX EY EZ E.
  assert (P : forall a x a' x', Rabs a' <= 1 -> Rabs x' <= 1 -> Rabs (a - a') <= e -> Rabs (x - x') <= e -> Rabs (a * x - a' * x') <= (2 + / 1000) * e).
  { intros a0 x0 a1 x1 HA HX DA DX. replace (a0 * x0 - a1 * x1) with ((a0 - a1) * (x0 - x1) + (a0 - a1) * x1 + a1 * (x0 - x1)) by ring.
    assert (E0 : 0 <= e) by (eapply Rle_trans; [apply Rabs_pos|exact DA]).
    eapply Rle_trans; [apply Rabs_plus_le; [apply Rabs_plus_le|]; apply Rabs_mult_le; eassumption|]. nra. }
  assert (E0 : 0 <= e) by (eapply Rle_trans; [apply Rabs_pos|exact EA]).
  replace (_ - _) with ((a * x - a' * x') + (b * y - b' * y') + (c * z - c' * z')) by ring.
  eapply Rle_trans; [apply Rabs_plus_le; [apply Rabs_plus_le|]; apply P; eassumption|]. lra.
Qed.
Lemma near_ortho : forall m r e, rotation r -> s_closem e m r -> e <= / 1000 -> s_ortho (7 * e) m.
Proof.
  intros m r e [R1 R2 R3 R12 R13 R23 _] [[A1 [A2 A3]] [[B1 [B2 B3]] [C1 [C2 C3]]]] E.
  destruct m as [m1 m2 m3 m4 m5 m6 m7 m8 m9], r as [r1 r2 r3 r4 r5 r6 r7 r8 r9].
  unfold s_ortho, s_dot, col1, col2, col3 in *.
  cbn [MathTypes.mxx MathTypes.mxy MathTypes.mxz MathTypes.myx MathTypes.myy MathTypes.myz MathTypes.mzx MathTypes.mzy MathTypes.mzz vx vy vz] in *.
  assert (E1 := entry1 r1 r4 r7 R1). assert (E4 : Rabs r4 <= 1) by (apply (entry1 r4 r1 r7); lra). assert (E7 : Rabs r7 <= 1) by (apply (entry1 r7 r1 r4); lra).
  assert (E2 := entry1 r2 r5 r8 R2). assert (E5 : Rabs r5 <= 1) by (apply (entry1 r5 r2 r8); lra). assert (E8 : Rabs r8 <= 1) by (apply (entry1 r8 r2 r5); lra).
  assert (E3 := entry1 r3 r6 r9 R3). assert (E6 : Rabs r6 <= 1) by (apply (entry1 r6 r3 r9); lra). assert (E9 : Rabs r9 <= 1) by (apply (entry1 r9 r3 r6); lra).
  pose proof near_dot as ND.
  split; [split; [|split]|split; [|split]].
  - rewrite <- R1. apply ND; assumption.
  - rewrite <- R2. apply ND; assumption.
  - rewrite <- R3. apply ND; assumption.
  - assert (G := ND m1 m4 m7 m2 m5 m8 r1 r4 r7 r2 r5 r8 e E1 E4 E7 E2 E5 E8 A1 B1 C1 A2 B2 C2 E). rewrite R12, Rminus_0_r in G. exact G.
  - assert (G := ND m1 m4 m7 m3 m6 m9 r1 r4 r7 r3 r6 r9 e E1 E4 E7 E3 E6 E9 A1 B1 C1 A3 B3 C3 E). rewrite R13, Rminus_0_r in G. exact G.
  - assert (G := ND m2 m5 m8 m3 m6 m9 r2 r5 r8 r3 r6 r9 e E2 E5 E8 E3 E6 E9 A2 B2 C2 A3 B3 C3 E). rewrite R23, Rminus_0_r in G. exact G.
Qed.
Lemma range_nz : forall q, s_range q -> q_norm2 (rq q) <> 0.
Proof. intros q [H _]. pose proof (bpow_gt_0 radix2 (-900)). lra. Qed.
Lemma setRotation_ortho : forall q : quat F64, s_finq q -> s_range q -> s_ortho (448 * uro) (rm (m3setRotation q)).
Proof.
  intros q F N. destruct (setRotation_b q F N) as [_ C]. replace (448 * uro) with (7 * (64 * uro)) by ring.
  eapply near_ortho; [|exact C|unfold uro; lra]. rewrite qmat_eq by (apply range_nz; auto). apply setRotation_rotation, range_nz; auto.
Qed.
Lemma quat_round_trip : forall (q : quat F64) (o p : vec3 F64) M N, s_finq q -> s_range q -> s_finv o -> s_finv p -> s_bound M (rv p) -> s_bound N (rv o) ->
  M <= big / 1024 -> N <= big / 1024 ->
  let t := T3 (m3setRotation q) o in
  s_finv (tapply (tinverse t) (tapply t p)) /\ s_close (1500 * uro * (M + N) + 40 * eta) (rv (tapply (tinverse t) (tapply t p))) (rv p).
Proof.
  intros q o p M N FQ RQ FO FP BP BO HM HN t. destruct (setRotation_b q FQ RQ) as [FM _].
  destruct (round_trip t p (448 * uro) M N) as [F C]; auto. { apply setRotation_ortho; auto. } { unfold uro; lra. }
  split; auto. assert (M0 : 0 <= M) by (destruct BP as [H _]; eapply Rle_trans; [apply Rabs_pos|exact H]). assert (N0 : 0 <= N) by (destruct BO as [H _]; eapply Rle_trans; [apply Rabs_pos|exact H]).
  assert (L : 3 * (448 * uro * M) + 80 * uro * (M + N) + 40 * eta <= 1500 * uro * (M + N) + 40 * eta) by (unfold uro; lra).
  destruct C as [C1 [C2 C3]]. split; [|split]; eapply Rle_trans; eauto.
Qed.

(** ** Normalized vectors *)
Lemma normv_scales : forall v, s_rangev v -> let r := sqrt (s_norm2 (rv v)) in 0 < r /\ r * r = s_norm2 (rv v) /\ scale (r * r) /\ scale r.
Proof.
  intros v [H1 H2] r. subst r. set (L := s_norm2 (rv v)) in *. pose proof (bpow_gt_0 radix2 (-900)) as P9.
  assert (LP : 0 < L) by lra. assert (RP := sqrt_lt_R0 L LP). assert (RR : sqrt L * sqrt L = L) by (apply sqrt_sqrt; lra).
  assert (E1 : sqrt (bpow radix2 (-900)) = bpow radix2 (-450)).
  { change (-900)%Z with (-450 + -450)%Z. rewrite bpow_plus. apply sqrt_square. apply bpow_ge_0. }
  assert (E2 : sqrt (bpow radix2 900) = bpow radix2 450).
  { change 900%Z with (450 + 450)%Z. rewrite bpow_plus. apply sqrt_square. apply bpow_ge_0. }
  assert (B1 : bpow radix2 (-450) <= sqrt L) by (rewrite <- E1; apply sqrt_le_1; lra).
  assert (B2 : sqrt L <= bpow radix2 450) by (rewrite <- E2; apply sqrt_le_1; lra).
  split; auto. split; auto. rewrite RR. split; split; auto.
  - eapply Rle_trans; [exact H2|]. apply bpow_le; lia.
  - eapply Rle_trans; [|exact B1]. apply bpow_le; lia.
  - eapply Rle_trans; [exact B2|]. apply bpow_le; lia.
Qed.
Lemma vlength_b : forall v : vec3 F64, s_finv v -> s_rangev v ->
  fin (vlength v) = true /\ Rabs (B2R (vlength v) - sqrt (s_norm2 (rv v))) <= 6 * uro * sqrt (s_norm2 (rv v)).
Proof.
  intros v [FX [FY FZ]] N. destruct (normv_scales v N) as [RP [RR [S1 S2]]]. set (r := sqrt (s_norm2 (rv v))) in *.
  unfold vlength, s_norm2, s_dot, rv in *. cbn [vx vy vz] in *. pose proof (scale_eta _ S1) as EL. pose proof (scale_big _ S1) as BL. pose proof (scale_pos _ S1) as LP. set (L := r * r) in *.
  pose proof big_pos as BP. pose proof eta_pos as EP.
  set (X := B2R (vx v) * B2R (vx v)) in *. set (Y := B2R (vy v) * B2R (vy v)) in *. set (Z := B2R (vz v) * B2R (vz v)) in *.
  assert (X0 : 0 <= X) by (unfold X; nra). assert (Y0 : 0 <= Y) by (unfold Y; nra). assert (Z0 : 0 <= Z) by (unfold Z; nra).
  destruct (sqr_b (vx v) L FX) as [GX HX]; [fold X; lra|lra|]. destruct (sqr_b (vy v) L FY) as [GY HY]; [fold Y; lra|lra|]. destruct (sqr_b (vz v) L FZ) as [GZ HZ]; [fold Z; lra|lra|].
  fold X in HX. fold Y in HY. fold Z in HZ.
  assert (AX : Rabs X <= X) by (rewrite Rabs_right; lra). assert (AY : Rabs Y <= Y) by (rewrite Rabs_right; lra). assert (AZ : Rabs Z <= Z) by (rewrite Rabs_right; lra).
  unfold uro in *.
  destruct (add_close _ _ _ _ _ _ _ _ GX GY HX AX HY AY) as [G1 H1]; [lra|].
  assert (A1 := Rabs_plus_le _ _ _ _ AX AY).
  destruct (add_close _ _ _ _ _ _ _ _ G1 GZ H1 A1 HZ AZ) as [G2 H2]; [unfold uro in *; lra|].
  set (d := nadd (nadd (nmul (vx v) (vx v)) (nmul (vy v) (vy v))) (nmul (vz v) (vz v))) in *.
  assert (HD : Rabs (B2R d - L) <= 4 * uro * L). { rewrite RR. eapply Rle_trans; [exact H2|]. unfold uro. rewrite RR in EL. lra. }
  clear H1 H2. apply Rabs_le_inv in HD. assert (D0 : 0 < B2R d) by (unfold uro in *; lra).
  destruct (sqrt_R d G2) as [FS ES]; [lra|]. split; auto. rewrite ES.
  assert (SP := sqrt_lt_R0 _ D0). assert (SS : sqrt (B2R d) * sqrt (B2R d) = B2R d) by (apply sqrt_sqrt; lra). set (s := sqrt (B2R d)) in *.
  (* (s - r)(s + r) = d - L *)
  assert (SR : Rabs (s - r) <= 4 * uro * r).
  { apply Rabs_le. unfold L in HD. rewrite <- SS in HD. unfold uro in *. split; nra. }
  pose proof (rnd_err s) as RE. assert (ER := scale_eta _ S2). assert (AR : Rabs r <= r) by (rewrite Rabs_right; lra).
  assert (AS := Rabs_close _ _ _ _ SR AR). replace (rnd s - r) with ((rnd s - s) + (s - r)) by ring.
  eapply Rle_trans; [apply Rabs_plus_le; [exact RE|exact SR]|]. unfold uro in *. lra.
Qed.
Lemma unit_entry : forall (a len : F64) r, fin a = true -> 0 < r -> Rabs (B2R a) <= r -> Rabs (B2R len - r) <= 6 * uro * r ->
  fin (ndiv a len) = true /\ Rabs (B2R (ndiv a len) - B2R a / r) <= 8 * uro.
Proof.
  intros a len r FA RP HA HL. apply Rabs_le_inv in HL. set (l := B2R len) in *. assert (LP : 0 < l) by (unfold uro in *; lra).
  assert (B1 : 1024 <= big) by (unfold big; change 1024 with (bpow radix2 10); apply bpow_le; lia).
  assert (E1 : eta <= uro / 1000). { pose proof (scale_eta 1) as X. unfold scale in X. change 1 with (bpow radix2 0) in X at 1 2. assert (eta <= uro * 1 / 1000) by (apply X; split; apply bpow_le; lia). lra. }
  assert (A1 : Rabs (B2R a / r) <= 1).
  { unfold Rdiv. rewrite Rabs_mult, (Rabs_right (/ r)) by (left; apply Rinv_0_lt_compat; auto). apply (Rmult_le_reg_r r); auto. rewrite Rmult_assoc, Rinv_l by lra. lra. }
  assert (Q : Rabs (B2R a / l - B2R a / r) <= (6 + / 100) * uro).
  { replace (B2R a / l - B2R a / r) with ((r - l) / l * (B2R a / r)) by (field; lra).
    replace ((6 + / 100) * uro) with ((6 + / 100) * uro * 1) by ring. apply Rabs_mult_le; auto.
    unfold Rdiv. rewrite Rabs_mult, (Rabs_right (/ l)) by (left; apply Rinv_0_lt_compat; auto). apply (Rmult_le_reg_r l); auto. rewrite Rmult_assoc, Rinv_l, Rmult_1_r by lra.
    apply Rle_trans with (6 * uro * r); [apply Rabs_le; lra|]. unfold uro in *. nra. }
  assert (AQ := Rabs_close _ _ _ _ Q A1).
  destruct (div_R a len FA) as [F E]; [fold l; lra|fold l; unfold uro in *; lra|]. fold l in E. split; auto. rewrite E.
  pose proof (rnd_err (B2R a / l)) as RE. replace (rnd (B2R a / l) - B2R a / r) with ((rnd (B2R a / l) - B2R a / l) + (B2R a / l - B2R a / r)) by ring.
  eapply Rle_trans; [apply Rabs_plus_le; [exact RE|exact Q]|]. unfold uro in *. lra.
Qed.
Lemma normalized_b : forall v : vec3 F64, s_finv v -> s_rangev v ->
  s_finv (vnormalized v) /\ s_close (8 * uro) (rv (vnormalized v)) (s_unit (rv v)).
Proof.
  intros v F N. destruct (vlength_b v F N) as [_ HL]. destruct (normv_scales v N) as [RP [RR _]]. destruct F as [FX [FY FZ]].
  assert (P : forall a, a * a <= s_norm2 (rv v) -> Rabs a <= sqrt (s_norm2 (rv v))) by (intros a H; rewrite <- RR in H; apply Rabs_le; split; nra).
  unfold vnormalized, s_unit, s_close. cbv zeta. set (r := sqrt (s_norm2 (rv v))) in *.
  destruct (unit_entry (vx v) (vlength v) r FX RP) as [F1 C1]; [apply P; unfold s_norm2, s_dot, rv; cbn [vx vy vz]; nra|exact HL|].
  destruct (unit_entry (vy v) (vlength v) r FY RP) as [F2 C2]; [apply P; unfold s_norm2, s_dot, rv; cbn [vx vy vz]; nra|exact HL|].
  destruct (unit_entry (vz v) (vlength v) r FZ RP) as [F3 C3]; [apply P; unfold s_norm2, s_dot, rv; cbn [vx vy vz]; nra|exact HL|].
  unfold s_finv, s_fin, rv. cbn [vx vy vz]. auto 10.
Qed.
