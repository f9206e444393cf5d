(** * Slicing triangles with the laser plane on doubles *)
From Coq Require Import ZArith NArith List Bool Lia Reals Lra Psatz.
From Flocq Require Import Core BinarySingleNaN.
From Verif Require Import Num MathTypes Outcome Mesh Spec SpecRound Laser SpecLaser SpecLaserF SpecSliceF
  P_Tac P_Math P_Mesh P_Round P_Round2 P_OctF P_RayF P_Laser4 P_LaserF P_HeightF.
Import ListNotations.
Local Open Scope R_scope.
Local Notation fin := (is_finite (prec := 53) (emax := 1024)).

(** ** one coordinate of the point of an edge in the plane *)
Lemma wsum_le : forall p q a b B, 0 <= a -> 0 <= b -> Rabs p <= B -> Rabs q <= B -> Rabs (p * b + q * a) <= B * (a + b).
Proof.
  intros p q a b B A0 B0 HP HQ. eapply Rle_trans; [apply Rabs_triang|]. rewrite !Rabs_mult, (Rabs_pos_eq a), (Rabs_pos_eq b) by auto.
  pose proof (Rmult_le_compat_r b _ _ B0 HP). pose proof (Rmult_le_compat_r a _ _ A0 HQ). lra.
Qed.
Lemma div_le : forall x s k, 0 < s -> Rabs x <= k * s -> Rabs (x / s) <= k.
Proof.
  intros x s k S H. unfold Rdiv. rewrite Rabs_mult, Rabs_inv, (Rabs_pos_eq s) by lra. apply Rmult_le_reg_r with s; auto. rewrite Rmult_assoc, Rinv_l, Rmult_1_r by lra. auto.
Qed.
Lemma cut1_b : forall (p q a b : F64) B h, fin p = true -> fin q = true -> fin a = true -> fin b = true -> 0 <= B2R a -> 0 <= B2R b ->
  Rabs (B2R p) <= B -> Rabs (B2R q) <= B -> B2R a <= B -> B2R b <= B -> 0 <= B <= bpow radix2 500 -> eta <= h -> h <= B2R a + B2R b ->
  let x := ndiv (nadd (nmul p b) (nmul q a)) (nadd a b) in
  fin x = true /\ Rabs (B2R x - (B2R p * B2R b + B2R q * B2R a) / (B2R a + B2R b)) <= 5 * uro * B + 3 * eta / h + eta.
Proof.
  intros p q a b B h FP FQ FA FB A0 B0 HP HQ HA HB [BP BU] EH HS x. pose proof eta_pos as EP. pose proof uro_pos as UP. pose proof big_pos as GP. pose proof eta_big as EG.
  assert (BB : B * B <= big / 1024).
  { unfold big. replace (bpow radix2 1023 / 1024) with (bpow radix2 1013) by (change 1023%Z with (1013 + 10)%Z; rewrite bpow_plus; change (bpow radix2 10) with 1024; field).
    apply Rle_trans with (bpow radix2 500 * bpow radix2 500); [apply Rmult_le_compat; auto|]. rewrite <- bpow_plus. apply bpow_le. lia. }
  assert (BS : B <= big / 1024).
  { unfold big. replace (bpow radix2 1023 / 1024) with (bpow radix2 1013) by (change 1023%Z with (1013 + 10)%Z; rewrite bpow_plus; change (bpow radix2 10) with 1024; field).
    eapply Rle_trans; [exact BU|apply bpow_le; lia]. }
  assert (G1 : 1 <= big / 1024).
  { unfold big. replace (bpow radix2 1023 / 1024) with (bpow radix2 1013) by (change 1023%Z with (1013 + 10)%Z; rewrite bpow_plus; change (bpow radix2 10) with 1024; field).
    change 1 with (bpow radix2 0). apply bpow_le. lia. }
  set (P := B2R p) in *. set (Q := B2R q) in *. set (ra := B2R a) in *. set (rb := B2R b) in *. set (S := ra + rb) in *.
  assert (SP : 0 < S) by lra.
  assert (AB : forall y z, Rabs y <= B -> 0 <= z -> Rabs (y * z) <= B * z). { intros y z HY HZ. rewrite Rabs_mult, (Rabs_pos_eq z) by auto. apply Rmult_le_compat_r; auto. }
  assert (BBb : B * rb <= B * B) by (apply Rmult_le_compat_l; auto). assert (BBa : B * ra <= B * B) by (apply Rmult_le_compat_l; auto).
  destruct (mul_R p b FP FB) as [F1 E1]. { fold P rb. eapply Rle_trans; [apply AB; auto|]. lra. }
  destruct (mul_R q a FQ FA) as [F2 E2]. { fold Q ra. eapply Rle_trans; [apply AB; auto|]. lra. }
  fold P rb in E1. fold Q ra in E2. pose proof (rnd_err (P * rb)) as R1. pose proof (rnd_err (Q * ra)) as R2. rewrite <- E1 in R1. rewrite <- E2 in R2.
  pose proof (uro_le _ _ (AB P rb HP B0)) as U1. pose proof (uro_le _ _ (AB Q ra HQ A0)) as U2.
  set (X1 := B2R (nmul p b)) in *. set (X2 := B2R (nmul q a)) in *. set (X := P * rb + Q * ra) in *.
  assert (HX : Rabs X <= B * S) by (apply wsum_le; auto). assert (BSP : 0 <= B * S) by (apply Rmult_le_pos; lra).
  assert (EX : Rabs (X1 + X2 - X) <= uro * (B * S) + 2 * eta).
  { replace (X1 + X2 - X) with ((X1 - P * rb) + (X2 - Q * ra)) by (unfold X; ring). eapply Rle_trans; [apply Rabs_triang|]. replace (B * S) with (B * rb + B * ra) by (unfold S; ring). lra. }
  pose proof (Rabs_close _ _ _ _ EX HX) as HX12.
  assert (BSB : B * S <= 2 * (B * B)) by (unfold S; lra).
  assert (UB : uro * (B * S) <= / 1000000 * (B * S)) by (apply Rmult_le_compat_r; [auto|unfold uro; lra]).
  destruct (add_R (nmul p b) (nmul q a) F1 F2) as [F3 E3]. { fold X1 X2. lra. }
  pose proof (rnd_plus X1 X2 (gen_B2R _) (gen_B2R _)) as R3. fold X1 X2 in E3. rewrite <- E3 in R3. set (Y := B2R (nadd (nmul p b) (nmul q a))) in *.
  pose proof (uro_le _ _ HX12) as U3.
  assert (EY : Rabs (Y - X) <= 201 / 100 * uro * (B * S) + 201 / 100 * eta).
  { replace (Y - X) with ((Y - (X1 + X2)) + (X1 + X2 - X)) by ring. eapply Rle_trans; [apply Rabs_triang|]. unfold uro in *. lra. }
  destruct (add_R a b FA FB) as [F4 E4]. { fold ra rb. fold S. rewrite Rabs_pos_eq; unfold S; lra. }
  pose proof (rnd_plus ra rb (gen_B2R _) (gen_B2R _)) as R4. fold ra rb in E4. rewrite <- E4 in R4. fold S in R4. set (D := B2R (nadd a b)) in *. rewrite (Rabs_pos_eq S) in R4 by lra.
  apply Rabs_le_inv in R4. assert (US : uro * S <= / 1000000 * S) by (apply Rmult_le_compat_r; [lra|unfold uro; lra]).
  assert (D1 : 999 / 1000 * S <= D) by lra. assert (DP : 0 < D) by lra.
  assert (EQ : Rabs (Y / D - X / S) <= 302 / 100 * uro * B + 202 / 100 * eta / h).
  { replace (Y / D - X / S) with ((Y - X) / D + (X / S) * ((S - D) / D)) by (field; lra).
    assert (T1 : Rabs ((Y - X) / D) <= 2013 / 1000 * uro * B + 2013 / 1000 * eta / h).
    { apply div_le; auto. eapply Rle_trans; [exact EY|].
      assert (uro * B * (999 / 1000 * S) <= uro * B * D) by (apply Rmult_le_compat_l; [apply Rmult_le_pos; lra|lra]).
      assert (eta * 1 <= eta / h * S).
      { replace (eta / h * S) with (eta * (S / h)) by (field; lra). apply Rmult_le_compat_l; [lra|]. apply Rmult_le_reg_r with h; [lra|]. unfold Rdiv. rewrite Rmult_assoc, Rinv_l by lra. lra. }
      assert (0 <= eta / h) by (apply Rmult_le_pos; [lra|left; apply Rinv_0_lt_compat; lra]).
      assert (eta / h * (999 / 1000 * S) <= eta / h * D) by (apply Rmult_le_compat_l; auto).
      replace ((2013 / 1000 * uro * B + 2013 / 1000 * eta / h) * D) with (2013 / 1000 * (uro * B * D) + 2013 / 1000 * (eta / h * D)) by (field; lra).
      replace (uro * B * (999 / 1000 * S)) with (999 / 1000 * (uro * (B * S))) in * by field. assert (0 <= uro * (B * S)) by (apply Rmult_le_pos; lra). lra. }
    assert (T2 : Rabs ((S - D) / D) <= 1002 / 1000 * uro).
    { apply div_le; auto. apply Rle_trans with (uro * S); [apply Rabs_le; lra|]. assert (uro * (999 / 1000 * S) <= uro * D) by (apply Rmult_le_compat_l; lra). lra. }
    assert (T3 : Rabs (X / S) <= B) by (apply div_le; auto).
    pose proof (Rabs_mult_le _ _ _ _ T3 T2) as T4. eapply Rle_trans; [apply Rabs_triang|].
    assert (0 <= eta / h) by (apply Rmult_le_pos; [lra|left; apply Rinv_0_lt_compat; lra]).
    replace (2013 / 1000 * eta / h) with (2013 / 1000 * (eta / h)) in * by (field; lra). replace (202 / 100 * eta / h) with (202 / 100 * (eta / h)) by (field; lra).
    assert (0 <= uro * B) by (apply Rmult_le_pos; lra). lra. }
  assert (EH1 : 0 <= eta / h <= 1).
  { split; [apply Rmult_le_pos; [lra|left; apply Rinv_0_lt_compat; lra]|]. apply Rmult_le_reg_r with h; [lra|]. unfold Rdiv. rewrite Rmult_assoc, Rinv_l by lra. lra. }
  replace (202 / 100 * eta / h) with (202 / 100 * (eta / h)) in EQ by (field; lra). replace (3 * eta / h) with (3 * (eta / h)) by (field; lra).
  assert (HXS : Rabs (X / S) <= B) by (apply div_le; auto). pose proof (Rabs_close _ _ _ _ EQ HXS) as HYD.
  assert (UBs : 0 <= uro * B <= / 1000000 * B) by (split; [apply Rmult_le_pos; lra|apply Rmult_le_compat_r; [auto|unfold uro; lra]]).
  destruct (div_R (nadd (nmul p b) (nmul q a)) (nadd a b) F3) as [F5 E5]. { fold D. lra. } { fold Y D. lra. }
  split; [exact F5|]. fold Y D in E5. pose proof (rnd_err (Y / D)) as R5. rewrite <- E5 in R5. fold x in R5. pose proof (uro_le _ _ HYD) as U5.
  replace (B2R x - X / S) with ((B2R x - Y / D) + (Y / D - X / S)) by ring. eapply Rle_trans; [apply Rabs_triang|]. unfold uro in *. lra.
Qed.
Lemma cut_b : forall (p q : vec2 F64) (a b : F64) B h, s_finv2 p -> s_finv2 q -> fin a = true -> fin b = true -> 0 <= B2R a -> 0 <= B2R b ->
  s_bound2 B (s_r2 p) -> s_bound2 B (s_r2 q) -> B2R a <= B -> B2R b <= B -> 0 <= B <= bpow radix2 500 -> eta <= h -> h <= B2R a + B2R b ->
  s_finv2 (cut p q a b) /\ s_close2 (5 * uro * B + 3 * eta / h + eta) (s_r2 (cut p q a b)) (cut (s_r2 p) (s_r2 q) (B2R a) (B2R b)).
Proof.
  intros p q a b B h [P1 P2] [Q1 Q2] FA FB A0 B0 [BP1 BP2] [BQ1 BQ2] HA HB BB EH HS.
  destruct (cut1_b (v2x p) (v2x q) a b B h) as [F1 E1]; auto. destruct (cut1_b (v2y p) (v2y q) a b B h) as [F2 E2]; auto.
  split; split; [exact F1|exact F2|exact E1|exact E2].
Qed.
(** ** the whole slice, next to the slice of real corners on the same sides *)
Definition far_apart (w1 w2 : R) : Prop := (w1 < 0 /\ 0 <= w2) \/ (0 <= w1 /\ w2 < 0).
Lemma slice_par : forall (z1 z2 z3 : F64) (p1 p2 p3 : vec2 F64) (w1 w2 w3 : R) (r1 r2 r3 : vec2 R) e,
  nltb z1 n0 = Rltb w1 0 -> nltb z2 n0 = Rltb w2 0 -> nltb z3 n0 = Rltb w3 0 ->
  let ok := fun (z z' : F64) (p p' : vec2 F64) (w w' : R) (r r' : vec2 R) =>
    far_apart w w' -> s_finv2 (cut p p' (nabs z) (nabs z')) /\ s_close2 e (s_r2 (cut p p' (nabs z) (nabs z'))) (cut r r' (Rabs w) (Rabs w')) in
  ok z1 z2 p1 p2 w1 w2 r1 r2 -> ok z2 z1 p2 p1 w2 w1 r2 r1 -> ok z1 z3 p1 p3 w1 w3 r1 r3 -> ok z3 z1 p3 p1 w3 w1 r3 r1 -> ok z2 z3 p2 p3 w2 w3 r2 r3 -> ok z3 z2 p3 p2 w3 w2 r3 r2 ->
  match slice z1 z2 z3 p1 p2 p3, slice w1 w2 w3 r1 r2 r3 with
  | None, None => True
  | Some (q1, q2), Some (s1, s2) => (s_finv2 q1 /\ s_close2 e (s_r2 q1) s1) /\ (s_finv2 q2 /\ s_close2 e (s_r2 q2) s2)
  | _, _ => False
  end.
Proof.
  intros z1 z2 z3 p1 p2 p3 w1 w2 w3 r1 r2 r3 e E1 E2 E3 ok H12 H21 H13 H31 H23 H32. unfold ok in *. clear ok. unfold slice. rewrite E1, E2, E3. unfold far_apart in *.
  change (@nltb R NumR w1 n0) with (Rltb w1 0). change (@nltb R NumR w2 n0) with (Rltb w2 0). change (@nltb R NumR w3 n0) with (Rltb w3 0).
  destruct (Rltb w1 0) eqn:A, (Rltb w2 0) eqn:B, (Rltb w3 0) eqn:C; cbn [Bool.eqb negb orb]; auto;
  (apply Rltb_true in A || apply Rltb_false in A); (apply Rltb_true in B || apply Rltb_false in B); (apply Rltb_true in C || apply Rltb_false in C);
  split; first [apply H12; lra|apply H21; lra|apply H13; lra|apply H31; lra|apply H23; lra|apply H32; lra].
Qed.
(** ** the corners in the sensor frame *)
Definition tz (pose : trans3 F64) (v : vec3 F64) : vec3 R := rv (tapply pose v).
Lemma vert_tz : forall pose v, B2R (vert_z pose v) = vz (tz pose v) /\ s_r2 (vert_xy pose v) = xy (tz pose v).
Proof. intros pose v. split; reflexivity. Qed.
Lemma small_big : forall M, M <= bpow radix2 400 -> 64 * M <= big / 8.
Proof.
  intros M H. apply Rle_trans with (64 * bpow radix2 400); [lra|]. unfold big. replace (bpow radix2 1023 / 8) with (bpow radix2 1020) by (change 1023%Z with (1020 + 3)%Z; rewrite bpow_plus; change (bpow radix2 3) with 8; field).
  replace (64 * bpow radix2 400) with (bpow radix2 406) by (change 406%Z with (6 + 400)%Z; rewrite bpow_plus; change (bpow radix2 6) with 64; reflexivity). apply bpow_le. lia.
Qed.
Lemma bound_nonneg : forall M v, s_bound M v -> 0 <= M.
Proof. intros M v [H _]. eapply Rle_trans; [apply Rabs_pos|exact H]. Qed.
Definition dlt (M N : R) : R := 27 * uro * (M + N) + 7 * eta.
Lemma corner_b : forall pose v M N, s_pose N pose -> s_vert M v -> M + N <= bpow radix2 400 ->
  fin (vert_z pose v) = true /\ s_finv2 (vert_xy pose v) /\ s_close (dlt M N) (tz pose v) (s_at pose v) /\ s_bound (6 * (M + N)) (s_at pose v) /\ s_bound (13 / 2 * (M + N) + 7 * eta) (tz pose v).
Proof.
  intros pose v M N [FM [FT [BM BT]]] [FV BV] H. pose proof (bound_nonneg _ _ BT) as N0. pose proof (bound_nonneg _ _ BV) as M0. pose proof (small_big _ H) as SB.
  destruct (apply_b pose v 2 M N) as [F C]; auto; [lra|lra|]. destruct F as [F1 [F2 F3]]. split; [exact F3|]. split; [split; [exact F1|exact F2]|].
  pose proof uro_pos as UP. pose proof eta_pos as EP. assert (0 <= uro * M) by (apply Rmult_le_pos; lra). assert (0 <= uro * N) by (apply Rmult_le_pos; lra).
  assert (LE : 13 * uro * (2 * M) + uro * N + 7 * eta <= dlt M N) by (unfold dlt; lra).
  assert (C' : s_close (dlt M N) (tz pose v) (s_at pose v)) by (destruct C as [C1 [C2 C3]]; repeat split; (eapply Rle_trans; [eassumption|exact LE])).
  assert (BA : s_bound (6 * (M + N)) (s_at pose v)).
  { destruct BM as [[U1 [U2 U3]] [[V1 [V2 V3]] [W1 [W2 W3]]]], BT as [T1 [T2 T3]], BV as [Q1 [Q2 Q3]]. cbn [vx vy vz] in *.
    assert (L : forall a b c x y z t, Rabs a <= 2 -> Rabs b <= 2 -> Rabs c <= 2 -> Rabs x <= M -> Rabs y <= M -> Rabs z <= M -> Rabs t <= N -> Rabs (a * x + b * y + c * z + t) <= 6 * (M + N)).
    { intros. eapply Rle_trans; [apply Rabs_plus_le; [apply Rabs_plus_le; [apply Rabs_plus_le|]; apply Rabs_mult_le; eassumption|eassumption]|]. lra. }
    unfold s_at, SpecRound.s_moved, s_dot, s_bound. cbn [vx vy vz]. repeat split; apply L; assumption. }
  split; [exact C'|]. split; [exact BA|]. destruct C' as [C1 [C2 C3]], BA as [A1 [A2 A3]].
  assert (LE' : 6 * (M + N) + dlt M N <= 13 / 2 * (M + N) + 7 * eta) by (unfold dlt, uro; lra).
  repeat split; (eapply Rle_trans; [eapply Rabs_close; eassumption|exact LE']).
Qed.
Lemma sign_R : forall z : F64, fin z = true -> nltb z n0 = Rltb (B2R z) 0.
Proof. intros z F. destruct zero_R as [FZ EZ]. rewrite (ltb_R z n0 F FZ), EZ. reflexivity. Qed.
Lemma abs_B2R : forall z : F64, fin z = true -> fin (nabs z) = true /\ B2R (nabs z) = Rabs (B2R z).
Proof. exact abs_R. Qed.
Definition ers (M N h : R) : R := 33 * uro * (M + N) + 3 * eta / h + 2 * eta.
Lemma cut_corner : forall pose v v' M N h, s_pose N pose -> s_vert M v -> s_vert M v' -> M + N <= bpow radix2 400 -> eta <= h -> s_tall h (vert_z pose v) -> s_tall h (vert_z pose v') ->
  far_apart (B2R (vert_z pose v)) (B2R (vert_z pose v')) ->
  let q := cut (vert_xy pose v) (vert_xy pose v') (nabs (vert_z pose v)) (nabs (vert_z pose v')) in
  s_finv2 q /\ s_close2 (ers M N h) (s_r2 q) (cut (xy (tz pose v)) (xy (tz pose v')) (Rabs (vz (tz pose v))) (Rabs (vz (tz pose v')))).
Proof.
  intros pose v v' M N h HP HV HV' H EH T T' FA q. destruct (corner_b pose v M N HP HV H) as [F1 [G1 [C1 [_ B1]]]]. destruct (corner_b pose v' M N HP HV' H) as [F2 [G2 [C2 [_ B2]]]].
  destruct (abs_B2R _ F1) as [FA1 EA1]. destruct (abs_B2R _ F2) as [FA2 EA2]. pose proof (bound_nonneg _ _ B1) as B0. pose proof eta_pos as EP. pose proof uro_pos as UP.
  destruct (cut_b (vert_xy pose v) (vert_xy pose v') (nabs (vert_z pose v)) (nabs (vert_z pose v')) (13 / 2 * (M + N) + 7 * eta) h) as [Q1 Q2]; auto.
  { rewrite EA1. apply Rabs_pos. } { rewrite EA2. apply Rabs_pos. }
  { split; [apply (proj1 B1)|apply (proj1 (proj2 B1))]. } { split; [apply (proj1 B2)|apply (proj1 (proj2 B2))]. }
  { rewrite EA1. apply (proj2 (proj2 B1)). } { rewrite EA2. apply (proj2 (proj2 B2)). }
  { split; [exact B0|]. apply Rle_trans with (8 * bpow radix2 400).
    - assert (eta <= bpow radix2 0) by (apply eta_le; lia). assert (bpow radix2 0 <= bpow radix2 400) by (apply bpow_le; lia). assert (7 * eta <= bpow radix2 400); [|lra].
      assert (E7 : 8 * eta <= bpow radix2 400). { assert (eta <= bpow radix2 397) by (apply eta_le; lia). replace (bpow radix2 400) with (bpow radix2 397 * 8); [lra|]. change 400%Z with (397 + 3)%Z. rewrite bpow_plus. reflexivity. } lra.
    - replace (8 * bpow radix2 400) with (bpow radix2 403) by (change 403%Z with (3 + 400)%Z; rewrite bpow_plus; reflexivity). apply bpow_le. lia. }
  { rewrite EA1, EA2. destruct T as [T|T], T' as [T'|T']; rewrite ?T, ?T' in *; try (destruct FA; lra); pose proof (Rabs_pos (B2R (vert_z pose v))); pose proof (Rabs_pos (B2R (vert_z pose v'))); rewrite ?Rabs_R0; lra. }
  split; [exact Q1|]. rewrite EA1, EA2 in Q2. change (s_r2 (vert_xy pose v)) with (xy (tz pose v)) in Q2. change (s_r2 (vert_xy pose v')) with (xy (tz pose v')) in Q2.
  assert (LE : 5 * uro * (13 / 2 * (M + N) + 7 * eta) + 3 * eta / h + eta <= ers M N h).
  { unfold ers. assert (0 <= M + N) by (destruct HP as [_ [_ [_ HT]]], HV as [_ HVV]; pose proof (bound_nonneg _ _ HT); pose proof (bound_nonneg _ _ HVV); lra). unfold uro. lra. }
  destruct Q2 as [X Y]. split; (eapply Rle_trans; [eassumption|exact LE]).
Qed.
Lemma slice_F : forall pose a b c M N h, s_pose N pose -> s_vert M a -> s_vert M b -> s_vert M c -> M + N <= bpow radix2 400 -> eta <= h ->
  s_tall h (vert_z pose a) -> s_tall h (vert_z pose b) -> s_tall h (vert_z pose c) ->
  s_sliced (ers M N h) (dlt M N) (s_at pose a) (s_at pose b) (s_at pose c)
    (slice (vert_z pose a) (vert_z pose b) (vert_z pose c) (vert_xy pose a) (vert_xy pose b) (vert_xy pose c)).
Proof.
  intros pose a b c M N h HP VA VB VC H EH TA TB TC.
  destruct (corner_b pose a M N HP VA H) as [F1 [_ [C1 _]]]. destruct (corner_b pose b M N HP VB H) as [F2 [_ [C2 _]]]. destruct (corner_b pose c M N HP VC H) as [F3 [_ [C3 _]]].
  exists (tz pose a), (tz pose b), (tz pose c). split; [exact C1|]. split; [exact C2|]. split; [exact C3|].
  pose proof (slice_par (vert_z pose a) (vert_z pose b) (vert_z pose c) (vert_xy pose a) (vert_xy pose b) (vert_xy pose c)
    (vz (tz pose a)) (vz (tz pose b)) (vz (tz pose c)) (xy (tz pose a)) (xy (tz pose b)) (xy (tz pose c)) (ers M N h) (sign_R _ F1) (sign_R _ F2) (sign_R _ F3)) as P. cbv zeta in P.
  specialize (P (cut_corner pose a b M N h HP VA VB H EH TA TB) (cut_corner pose b a M N h HP VB VA H EH TB TA) (cut_corner pose a c M N h HP VA VC H EH TA TC)
    (cut_corner pose c a M N h HP VC VA H EH TC TA) (cut_corner pose b c M N h HP VB VC H EH TB TC) (cut_corner pose c b M N h HP VC VB H EH TC TB)).
  assert (ST : s_straddles (tz pose a) (tz pose b) (tz pose c) \/ ~ s_straddles (tz pose a) (tz pose b) (tz pose c)).
  { unfold s_straddles. destruct (Rlt_or_le (vz (tz pose a)) 0), (Rlt_or_le (vz (tz pose b)) 0), (Rlt_or_le (vz (tz pose c)) 0); try (left; tauto); right; lra. }
  destruct ST as [ST|ST].
  - destruct (slice_some _ _ _ ST) as [s1 [s2 [E S]]]. rewrite E in P. destruct (slice (vert_z pose a) _ _ _ _ _) as [[q1 q2]|]; [|contradiction].
    destruct P as [[P1 P2] [P3 P4]]. split; [exact ST|]. split; [exact P1|]. split; [exact P3|]. exists s1, s2. auto.
  - rewrite (slice_none _ _ _ ST) in P. destruct (slice (vert_z pose a) _ _ _ _ _) as [[q1 q2]|]; [contradiction|]. exact ST.
Qed.
(** ** close to the exact slice when all corners are clear of the plane *)
Lemma cut1_exact : forall p q a b p' q' a' b' d h B, 0 <= d -> 0 < h -> h <= a -> h <= b -> Rabs (p' - p) <= d -> Rabs (q' - q) <= d -> Rabs (a' - a) <= d -> Rabs (b' - b) <= d -> d <= h / 2 ->
  Rabs p <= B -> Rabs q <= B -> Rabs ((p' * b' + q' * a') / (a' + b') - (p * b + q * a) / (a + b)) <= d * (1 + B / h).
Proof.
  intros p q a b p' q' a' b' d h B D0 H0 HA HB DP DQ DA DB DH BP BQ. pose proof (Rabs_le_inv _ _ DA) as [A1 A2]. pose proof (Rabs_le_inv _ _ DB) as [B1 B2].
  assert (0 < a') by lra. assert (0 < b') by lra.
  replace ((p' * b' + q' * a') / (a' + b') - (p * b + q * a) / (a + b)) with (((p' - p) * b' + (q' - q) * a') / (a' + b') + ((q - p) * ((a' - a) * b' - (b' - b) * a') / (a' + b')) / (a + b)) by (field; lra).
  replace (d * (1 + B / h)) with (d + d * B / h) by (field; lra). eapply Rle_trans; [apply Rabs_triang|]. apply Rplus_le_compat.
  - apply div_le; [lra|]. apply wsum_le; auto; lra.
  - apply div_le; [lra|]. assert (B0 : 0 <= B) by (eapply Rle_trans; [apply Rabs_pos|exact BP]).
    assert (T1 : Rabs (((a' - a) * b' - (b' - b) * a') / (a' + b')) <= d).
    { apply div_le; [lra|]. replace ((a' - a) * b' - (b' - b) * a') with ((a' - a) * b' + (- (b' - b)) * a') by ring. apply wsum_le; auto; try lra. rewrite Rabs_Ropp. auto. }
    assert (T2 : Rabs (q - p) <= 2 * B). { unfold Rminus. eapply Rle_trans; [apply Rabs_triang|]. rewrite Rabs_Ropp. lra. }
    replace ((q - p) * ((a' - a) * b' - (b' - b) * a') / (a' + b')) with ((q - p) * (((a' - a) * b' - (b' - b) * a') / (a' + b'))) by (field; lra).
    eapply Rle_trans; [apply Rabs_mult_le; [exact T2|exact T1]|]. replace (2 * B * d) with (d * B / h * (2 * h)) by (field; lra). apply Rmult_le_compat_l; [|lra].
    apply Rmult_le_pos; [apply Rmult_le_pos; auto|left; apply Rinv_0_lt_compat; auto].
Qed.
Lemma abs_diff : forall x y d, Rabs (x - y) <= d -> Rabs (Rabs x - Rabs y) <= d.
Proof. intros x y d H. eapply Rle_trans; [apply Rabs_triang_inv2|exact H]. Qed.
Lemma same_side : forall x y d, Rabs (x - y) <= d -> d < Rabs y -> Rltb x 0 = Rltb y 0.
Proof.
  intros x y d H L. apply Rabs_le_inv in H. unfold Rltb. destruct (Rlt_dec x 0), (Rlt_dec y 0); auto; exfalso; unfold Rabs in L; destruct (Rcase_abs y); lra.
Qed.
Lemma close2_trans : forall d e p q r, s_close2 d p q -> s_close2 e q r -> s_close2 (d + e) p r.
Proof.
  intros d e p q r [A1 A2] [B1 B2]. split.
  - replace (v2x p - v2x r) with ((v2x p - v2x q) + (v2x q - v2x r)) by ring. apply Rabs_plus_le; auto.
  - replace (v2y p - v2y r) with ((v2y p - v2y q) + (v2y q - v2y r)) by ring. apply Rabs_plus_le; auto.
Qed.
Lemma far_same : forall x y x' y', Rltb x 0 = Rltb x' 0 -> Rltb y 0 = Rltb y' 0 -> far_apart x y -> far_apart x' y'.
Proof.
  intros x y x' y' E1 E2 [[A B]|[A B]].
  - left. assert (T : Rltb x 0 = true) by (apply Rltb_true; auto). assert (F : Rltb y 0 = false) by (apply Rltb_false; auto). rewrite E1 in T. rewrite E2 in F. apply Rltb_true in T. apply Rltb_false in F. auto.
  - right. assert (F : Rltb x 0 = false) by (apply Rltb_false; auto). assert (T : Rltb y 0 = true) by (apply Rltb_true; auto). rewrite E1 in F. rewrite E2 in T. apply Rltb_true in T. apply Rltb_false in F. auto.
Qed.
Definition ere (M N h : R) : R := ers M N (h / 2) + dlt M N * (1 + 6 * (M + N) / h).
Lemma cut_exact : forall pose v v' M N h, s_pose N pose -> s_vert M v -> s_vert M v' -> M + N <= bpow radix2 400 -> 2 * dlt M N <= h -> 
  h <= Rabs (vz (s_at pose v)) -> h <= Rabs (vz (s_at pose v')) -> far_apart (vz (s_at pose v)) (vz (s_at pose v')) ->
  let q := cut (vert_xy pose v) (vert_xy pose v') (nabs (vert_z pose v)) (nabs (vert_z pose v')) in
  s_finv2 q /\ s_close2 (ere M N h) (s_r2 q) (cut (xy (s_at pose v)) (xy (s_at pose v')) (Rabs (vz (s_at pose v))) (Rabs (vz (s_at pose v')))).
Proof.
  intros pose v v' M N h HP HV HV' H DH T T' FA q. destruct (corner_b pose v M N HP HV H) as [F1 [G1 [C1 [B1 _]]]]. destruct (corner_b pose v' M N HP HV' H) as [F2 [G2 [C2 [B2 _]]]].
  destruct C1 as [X1 [Y1 Z1]], C2 as [X2 [Y2 Z2]], B1 as [BX1 [BY1 _]], B2 as [BX2 [BY2 _]]. pose proof eta_pos as EP. pose proof uro_pos as UP.
  assert (MN : 0 <= M + N) by (destruct HP as [_ [_ [_ HT]]], HV as [_ HVV]; pose proof (bound_nonneg _ _ HT); pose proof (bound_nonneg _ _ HVV); lra).
  assert (D0 : 7 * eta <= dlt M N) by (unfold dlt; assert (0 <= uro * (M + N)) by (apply Rmult_le_pos; lra); lra).
  pose proof (same_side _ _ _ Z1 ltac:(lra)) as S1. pose proof (same_side _ _ _ Z2 ltac:(lra)) as S2.
  assert (TL : forall x y, Rabs (x - y) <= dlt M N -> h <= Rabs y -> h / 2 <= Rabs x). { intros x y E L. apply abs_diff in E. apply Rabs_le_inv in E. lra. }
  destruct (cut_corner pose v v' M N (h / 2) HP HV HV' H) as [Q1 Q2]; [lra|right; eapply TL; eassumption|right; eapply TL; eassumption|eapply far_same; [symmetry; exact S1|symmetry; exact S2|exact FA]|].
  split; [exact Q1|]. unfold ere. eapply close2_trans; [exact Q2|]. unfold cut, v2divs, v2add, v2scale, xy. unR. cbn [v2x v2y].
  split; cbn [v2x v2y]; apply cut1_exact; auto; try lra; apply abs_diff; auto.
Qed.
Lemma slice_exact : forall pose a b c M N h, s_pose N pose -> s_vert M a -> s_vert M b -> s_vert M c -> M + N <= bpow radix2 400 -> 2 * dlt M N <= h ->
  h <= Rabs (vz (s_at pose a)) -> h <= Rabs (vz (s_at pose b)) -> h <= Rabs (vz (s_at pose c)) ->
  match slice (vert_z pose a) (vert_z pose b) (vert_z pose c) (vert_xy pose a) (vert_xy pose b) (vert_xy pose c) with
  | None => ~ s_straddles (s_at pose a) (s_at pose b) (s_at pose c)
  | Some (q1, q2) => s_straddles (s_at pose a) (s_at pose b) (s_at pose c) /\ s_finv2 q1 /\ s_finv2 q2 /\
      exists p1 p2, s_slice (s_at pose a) (s_at pose b) (s_at pose c) p1 p2 /\ s_close2 (ere M N h) (s_r2 q1) p1 /\ s_close2 (ere M N h) (s_r2 q2) p2
  end.
Proof.
  intros pose a b c M N h HP VA VB VC H DH TA TB TC. pose proof eta_pos as EP. pose proof uro_pos as UP.
  assert (MN : 0 <= M + N) by (destruct HP as [_ [_ [_ HT]]], VA as [_ HVV]; pose proof (bound_nonneg _ _ HT); pose proof (bound_nonneg _ _ HVV); lra).
  assert (D0 : 7 * eta <= dlt M N) by (unfold dlt; assert (0 <= uro * (M + N)) by (apply Rmult_le_pos; lra); lra).
  assert (SG : forall v, s_vert M v -> h <= Rabs (vz (s_at pose v)) -> nltb (vert_z pose v) n0 = Rltb (vz (s_at pose v)) 0).
  { intros v V T. destruct (corner_b pose v M N HP V H) as [F [_ [C _]]]. rewrite (sign_R _ F). eapply same_side; [exact (proj2 (proj2 C))|lra]. }
  pose proof (slice_par (vert_z pose a) (vert_z pose b) (vert_z pose c) (vert_xy pose a) (vert_xy pose b) (vert_xy pose c)
    (vz (s_at pose a)) (vz (s_at pose b)) (vz (s_at pose c)) (xy (s_at pose a)) (xy (s_at pose b)) (xy (s_at pose c)) (ere M N h) (SG a VA TA) (SG b VB TB) (SG c VC TC)) as P. cbv zeta in P.
  specialize (P (cut_exact pose a b M N h HP VA VB H DH TA TB) (cut_exact pose b a M N h HP VB VA H DH TB TA) (cut_exact pose a c M N h HP VA VC H DH TA TC)
    (cut_exact pose c a M N h HP VC VA H DH TC TA) (cut_exact pose b c M N h HP VB VC H DH TB TC) (cut_exact pose c b M N h HP VC VB H DH TC TB)).
  assert (ST : s_straddles (s_at pose a) (s_at pose b) (s_at pose c) \/ ~ s_straddles (s_at pose a) (s_at pose b) (s_at pose c)).
  { unfold s_straddles. destruct (Rlt_or_le (vz (s_at pose a)) 0), (Rlt_or_le (vz (s_at pose b)) 0), (Rlt_or_le (vz (s_at pose c)) 0); try (left; tauto); right; lra. }
  destruct ST as [ST|ST].
  - destruct (slice_some _ _ _ ST) as [s1 [s2 [E S]]]. rewrite E in P. destruct (slice (vert_z pose a) _ _ _ _ _) as [[q1 q2]|]; [|contradiction].
    destruct P as [[P1 P2] [P3 P4]]. split; [exact ST|]. split; [exact P1|]. split; [exact P3|]. exists s1, s2. auto.
  - rewrite (slice_none _ _ _ ST) in P. destruct (slice (vert_z pose a) _ _ _ _ _) as [[q1 q2]|]; [contradiction|]. exact ST.
Qed.
(** ** no cracks: an edge has one point in the plane, whichever triangle and direction it is computed from *)
Lemma add_comm : forall x y : F64, nadd x y = nadd y x.
Proof.
  intros x y. cbn [nadd NumF]. unfold Bplus. destruct x as [sx|sx| |sx mx ex hx], y as [sy|sy| |sy my ey hy]; try reflexivity; try (destruct sx, sy; reflexivity).
  rewrite (Z.min_comm ex ey). cbv zeta.
  f_equal. apply Zplus_comm.
Qed.
Lemma cut_swap : forall (p q : vec2 F64) (a b : F64), cut p q a b = cut q p b a.
Proof.
  intros p q a b. unfold cut, v2divs, v2add, v2scale. cbn [v2x v2y]. rewrite (add_comm a b). rewrite (add_comm (nmul (v2x p) b)), (add_comm (nmul (v2y p) b)). reflexivity.
Qed.
