(** * C117: normals, areas and normalised matrices on doubles *)
From Coq Require Import ZArith NArith List Bool Lia Reals Lra Psatz.
From Flocq Require Import Core BinarySingleNaN.
From Verif Require Import Num MathTypes Outcome Mesh Spec SpecRound SpecTriF P_Tac P_Math P_Round P_Round2 P_Round3 P_OctF P_InsideF P_Query4 P_CompF1 P_TriF Props_Round.
Import ListNotations.
Local Open Scope R_scope.
Local Notation fin := (is_finite (prec := 53) (emax := 1024)).

Lemma small_big : bpow radix2 400 <= big.
Proof. unfold big. apply bpow_le. lia. Qed.
Lemma s400 : forall x, bpow radix2 (-400) <= x <= bpow radix2 400 -> bpow radix2 (-900) <= x <= bpow radix2 900.
Proof. intros x [A B]. split; [eapply Rle_trans; [|exact A]|eapply Rle_trans; [exact B|]]; apply bpow_le; lia. Qed.
Lemma quot_le : forall k s y, 0 < k -> 0 < s -> k * s <= y -> s <= y / k.
Proof. intros k s y K S H. apply Rmult_le_reg_l with k; auto. replace (k * (y / k)) with y by (field; lra). exact H. Qed.

(** ** normals *)
Theorem C117_normal : forall (m : mesh F64) (i : N) (a b c : vec3 F64) (k E W : R), s_corners m (N.to_nat i) a b c -> s_fat k E W a b c ->
  exists n, getTriangleNormal m i = Ret n /\ s_finv n /\ Rabs (s_norm (rv n) - 1) <= 14 * uro /\
    s_close ((30 / k + 8) * uro) (rv n) (s_unit (s_cp (s_diff (rv c) (rv a)) (s_diff (rv b) (rv a)))).
Proof.
  intros m i a b c k E W [x [y [z [T [PA [PB PC]]]]]] [[FA [FB FC]] [BE [BW [K [KP [EP [WP SC]]]]]]]. pose proof uro_pos as U0. pose proof small_big as SB.
  eexists. split. { unfold getTriangleNormal, point_at. rewrite T. cbn [or_ub obind ti1 ti2 ti3]. rewrite PA. cbn [or_ub obind]. rewrite PB. cbn [or_ub obind]. rewrite PC. cbn [or_ub obind]. reflexivity. }
  destruct (diff_b b a E FB FA BE ltac:(lra)) as [FU CU]. destruct (diff_b c a W FC FA BW ltac:(lra)) as [FV CV].
  assert (EW : 0 < W * E) by (apply Rmult_lt_0_compat; lra). rewrite (Rmult_comm E W) in *.
  destruct (cross_b (vsub c a) (vsub b a) _ _ W E FV FU CV CU BW BE ltac:(lra) ltac:(lra) (s400 _ SC)) as [FX CX].
  rewrite <- norm_swap in K. pose proof (cp_norm _ _ _ _ BW BE ltac:(lra) ltac:(lra)) as NU.
  set (y0 := s_cp (s_diff (rv c) (rv a)) (s_diff (rv b) (rv a))) in *. set (cr := vcross (vsub c a) (vsub b a)) in *.
  assert (RG : s_rangev cr) by (eapply (cross_range cr y0 k W E); eauto).
  destruct (normalized_b cr FX RG) as [FN CN]. split; [exact FN|].
  assert (UN : s_norm (s_unit (rv cr)) = 1).
  { destruct (normv_scales cr RG) as [RP [RR _]]. unfold s_norm, s_unit, s_dot. cbn [vx vy vz]. set (r := sqrt (s_norm2 (rv cr))) in *.
    replace (vx (rv cr) / r * (vx (rv cr) / r) + vy (rv cr) / r * (vy (rv cr) / r) + vz (rv cr) / r * (vz (rv cr) / r)) with (s_norm2 (rv cr) / (r * r)) by (unfold s_norm2, s_dot; field; lra).
    rewrite RR. unfold Rdiv. rewrite Rinv_r by (rewrite <- RR; nra). apply sqrt_1. }
  split.
  - pose proof (close_dist _ _ (8 * uro) ltac:(lra) CN) as DD. pose proof (norm_dist (rv (vnormalized cr)) (s_unit (rv cr))) as N1. pose proof (norm_dist (s_unit (rv cr)) (rv (vnormalized cr))) as N2. rewrite dist_sym in N2. rewrite UN in *. apply Rabs_le. lra.
  - assert (K0 : 0 < k) by lra. assert (DU : 10 * uro * (W * E) <= / 100000000000 * (W * E)) by (apply Rmult_le_compat_r; [lra|unfold uro; lra]). assert (KE : / 1000000000 * (W * E) <= k * (W * E)) by (apply Rmult_le_compat_r; lra).
    assert (YP : 0 < s_norm y0) by lra.
    pose proof (unit_close (rv cr) y0 (10 * uro * (W * E)) ltac:(apply Rmult_le_pos; lra) CX ltac:(lra)) as UC.
    assert (Q : 3 * (10 * uro * (W * E)) / s_norm y0 <= 30 / k * uro).
    { apply Rmult_le_reg_r with (s_norm y0); auto. replace (3 * (10 * uro * (W * E)) / s_norm y0 * s_norm y0) with (30 * uro * (W * E)) by (field; lra).
      replace (30 / k * uro * s_norm y0) with (30 * uro * (s_norm y0 / k)) by (field; lra). apply Rmult_le_compat_l; [lra|]. apply quot_le; auto. }
    unfold s_close in *. assert (G : forall p q r, Rabs (p - q) <= 8 * uro -> Rabs (q - r) <= 3 * (10 * uro * (W * E)) / s_norm y0 -> Rabs (p - r) <= (30 / k + 8) * uro).
    { intros p q r H1 H2. replace (p - r) with ((p - q) + (q - r)) by ring. eapply Rle_trans; [apply Rabs_triang|]. lra. }
    destruct CN as [N1 [N2 N3]], UC as [U1 [U2 U3]]. repeat split; eapply G; eauto.
Qed.

(** ** areas *)
Lemma half_F : fin (nlit 5 10 : F64) = true /\ B2R (nlit 5 10 : F64) = 1 / 2.
Proof.
  split; [vm_compute; reflexivity|]. assert (E : B2SF (nlit 5 10 : F64) = SpecFloat.S754_finite false 4503599627370496 (-53)) by (vm_compute; reflexivity).
  rewrite <- SF2R_B2SF, E. unfold SF2R, F2R. cbn. lra.
Qed.
Theorem C117_area : forall (a b c : vec3 F64) (k E W : R), s_fat k E W a b c ->
  s_fin (triangleArea a b c) /\ Rabs (B2R (triangleArea a b c) - s_area (rv a) (rv b) (rv c)) <= (18 / k + 8) * uro * s_area (rv a) (rv b) (rv c) /\
  0 < B2R (triangleArea a b c).
Proof.
  intros a b c k E W [[FA [FB FC]] [BE [BW [K [KP [EP [WP SC]]]]]]]. pose proof uro_pos as U0. pose proof small_big as SB.
  assert (EW : 0 < E * W) by (apply Rmult_lt_0_compat; lra).
  assert (BE' : s_bound E (s_diff (rv a) (rv b))) by (destruct BE as [A1 [A2 A3]]; unfold s_bound, s_diff in *; cbn [vx vy vz] in *; rewrite Rabs_minus_sym in A1, A2, A3; auto).
  assert (BW' : s_bound W (s_diff (rv a) (rv c))) by (destruct BW as [A1 [A2 A3]]; unfold s_bound, s_diff in *; cbn [vx vy vz] in *; rewrite Rabs_minus_sym in A1, A2, A3; auto).
  assert (EQ : s_cp (s_diff (rv a) (rv b)) (s_diff (rv a) (rv c)) = s_cp (s_diff (rv b) (rv a)) (s_diff (rv c) (rv a))) by (unfold s_cp, s_diff; cbn [vx vy vz]; f_equal; ring).
  destruct (diff_b a b E FA FB BE' ltac:(lra)) as [FU CU]. destruct (diff_b a c W FA FC BW' ltac:(lra)) as [FV CV].
  destruct (cross_b (vsub a b) (vsub a c) _ _ E W FU FV CU CV BE' BW' ltac:(lra) ltac:(lra) (s400 _ SC)) as [FX CX].
  pose proof (cp_norm _ _ _ _ BE' BW' ltac:(lra) ltac:(lra)) as NU. unfold s_area, triangleArea. rewrite EQ in *.
  set (y0 := s_cp (s_diff (rv b) (rv a)) (s_diff (rv c) (rv a))) in *. set (cr := vcross (vsub a b) (vsub a c)) in *.
  assert (RG : s_rangev cr) by (eapply (cross_range cr y0 k E W); eauto).
  destruct (vlength_b cr FX RG) as [FL HL]. fold (s_norm (rv cr)) in HL. change (sqrt (s_norm2 (rv cr))) with (s_norm (rv cr)) in HL.
  assert (D0 : 0 <= 10 * uro * (E * W)) by (apply Rmult_le_pos; lra).
  pose proof (close_dist _ _ _ D0 CX) as DD. pose proof (norm_dist (rv cr) y0) as N1. pose proof (norm_dist y0 (rv cr)) as N2. rewrite dist_sym in N2.
  destruct (normv_scales cr RG) as [RP [_ [_ S1]]]. change (sqrt (s_norm2 (rv cr))) with (s_norm (rv cr)) in RP, S1.
  pose proof (scale_eta _ S1) as ET. pose proof (scale_big _ S1) as BG. pose proof big_pos as BP.
  set (n := s_norm (rv cr)) in *. set (h := s_norm y0) in *. set (l := vlength cr) in *. destruct half_F as [FH EH].
  assert (K0 : 0 < k) by lra. assert (DU : 10 * uro * (E * W) <= / 100000000000 * (E * W)) by (apply Rmult_le_compat_r; [lra|unfold uro; lra]). assert (KE : / 1000000000 * (E * W) <= k * (E * W)) by (apply Rmult_le_compat_r; lra).
  assert (HP : 0 < h) by lra. assert (US : uro <= / 1000000) by (unfold uro; lra).
  assert (UN : uro * n <= / 1000000 * n) by (apply Rmult_le_compat_r; lra).
  assert (LB : Rabs (B2R l) <= 2 * n) by (apply Rabs_le; apply Rabs_le_inv in HL; lra).
  destruct (mul_R (nlit 5 10) l FH FL) as [FM EM]; [rewrite EH; apply Rabs_le; apply Rabs_le_inv in LB; lra|]. split; [exact FM|]. rewrite EM, EH.
  pose proof (rnd_err (1 / 2 * B2R l)) as RE. assert (LP : Rabs (1 / 2 * B2R l) <= (1 / 2 + 3 * uro) * n) by (apply Rabs_le; apply Rabs_le_inv in HL; lra).
  apply uro_le in LP. assert (UU : uro * (uro * n) <= / 1000000 * (uro * n)) by (apply Rmult_le_compat_r; [apply Rmult_le_pos; lra|lra]).
  assert (Q : uro * (E * W) <= uro * (h / k)) by (apply uro_le, quot_le; auto).
  assert (NH : n <= 103 / 100 * h) by lra. apply uro_le in NH.
  assert (TOT : Rabs (rnd (1 / 2 * B2R l) - h / 2) <= 36 / 10 * uro * n + 875 / 100 * (uro * (E * W))).
  { apply Rabs_le_inv in RE. apply Rabs_le_inv in HL. apply Rabs_le. lra. }
  split.
  - eapply Rle_trans; [exact TOT|]. replace ((18 / k + 8) * uro * (h / 2)) with (9 * (uro * (h / k)) + 4 * (uro * h)) by (field; lra). assert (0 <= uro * (h / k)) by (apply Rmult_le_pos; [lra|]; apply Rmult_le_pos; [lra|left; apply Rinv_0_lt_compat; lra]). assert (0 <= uro * h) by (apply Rmult_le_pos; lra). lra.
  - apply Rabs_le_inv in TOT. lra.
Qed.

(** ** triangles with two equal corners *)
Definition Z0 (x : F64) : Prop := fin x = true /\ B2R x = 0.
Lemma rnd_0 : rnd 0 = 0.
Proof. unfold rnd. apply round_0. apply valid_rnd_N. Qed.
Lemma big_nn : Rabs 0 <= big.
Proof. rewrite Rabs_R0. left. apply big_pos. Qed.
Lemma z_mul : forall x y, Z0 x -> Z0 y -> Z0 (nmul x y).
Proof. intros x y [FX EX] [FY EY]. destruct (mul_R x y FX FY) as [F E]; [rewrite EX, Rmult_0_l; apply big_nn|]. split; auto. rewrite E, EX, Rmult_0_l. apply rnd_0. Qed.
Lemma z_add : forall x y, Z0 x -> Z0 y -> Z0 (nadd x y).
Proof. intros x y [FX EX] [FY EY]. destruct (add_R x y FX FY) as [F E]; [rewrite EX, EY, Rplus_0_l; apply big_nn|]. split; auto. rewrite E, EX, EY, Rplus_0_l. apply rnd_0. Qed.
Lemma z_sqrt : forall x, Z0 x -> Z0 (nsqrt x).
Proof. intros x [FX EX]. destruct (sqrt_R x FX) as [F E]; [rewrite EX; lra|]. split; auto. rewrite E, EX, sqrt_0. apply rnd_0. Qed.
Lemma z_nan : forall x y, Z0 x -> Z0 y -> is_nan (ndiv x y) = true.
Proof.
  assert (K : forall x : F64, Z0 x -> exists s, x = B754_zero s).
  { intros [s|s| |s m e H] [F E]; try discriminate F; [eauto|]. exfalso. cbn in E. apply eq_0_F2R in E. destruct s; discriminate E. }
  intros x y X Y. destruct (K x X) as [s ->]. destruct (K y Y) as [t ->]. reflexivity.
Qed.
(** products that agree as numbers cancel *)
Lemma z_minor : forall p q r s : F64, fin p = true -> fin q = true -> fin r = true -> fin s = true -> Rabs (B2R p * B2R q) <= big -> B2R p * B2R q = B2R r * B2R s -> Z0 (nsub (nmul p q) (nmul r s)).
Proof.
  intros p q r s P Q R1 S B E. destruct (mul_R p q P Q B) as [F1 E1]. rewrite E in B. destruct (mul_R r s R1 S B) as [F2 E2].
  assert (D : B2R (nmul p q) - B2R (nmul r s) = 0) by (rewrite E1, E2, E; ring).
  destruct (sub_R _ _ F1 F2) as [F H]; [rewrite D; apply big_nn|]. split; auto. rewrite H, D. apply rnd_0.
Qed.
Lemma z_cross : forall u w : vec3 F64, s_finv u -> s_finv w -> s_bound (bpow radix2 500) (rv u) -> s_bound (bpow radix2 500) (rv w) ->
  s_cp (rv u) (rv w) = V3 0 0 0 -> let x := vcross u w in Z0 (vx x) /\ Z0 (vy x) /\ Z0 (vz x).
Proof.
  intros u w [U1 [U2 U3]] [W1 [W2 W3]] [A1 [A2 A3]] [B1 [B2 B3]] E x. unfold s_cp, rv, s_fin in *. cbn [vx vy vz] in *. injection E as E1 E2 E3. subst x. unfold vcross. cbn [vx vy vz].
  assert (G : forall p q, Rabs p <= bpow radix2 500 -> Rabs q <= bpow radix2 500 -> Rabs (p * q) <= big).
  { intros p q P Q. rewrite Rabs_mult. apply Rle_trans with (bpow radix2 500 * bpow radix2 500); [apply Rmult_le_compat; auto; apply Rabs_pos|]. rewrite <- bpow_plus. unfold big. apply bpow_le. lia. }
  repeat split; apply z_minor; auto; lra.
Qed.
Lemma z_length : forall x, Z0 (vx x) -> Z0 (vy x) -> Z0 (vz x) -> Z0 (vlength x).
Proof. intros x X Y Z. unfold vlength. apply z_sqrt. repeat apply z_add; apply z_mul; auto. Qed.
Lemma sub_val : forall p q : vec3 F64, s_finv p -> s_finv q -> s_bound (bpow radix2 400) (rv p) -> s_bound (bpow radix2 400) (rv q) ->
  s_finv (vsub p q) /\ s_bound (bpow radix2 500) (rv (vsub p q)) /\ rv (vsub p q) = V3 (rnd (vx (rv p) - vx (rv q))) (rnd (vy (rv p) - vy (rv q))) (rnd (vz (rv p) - vz (rv q))).
Proof.
  intros p q [P1 [P2 P3]] [Q1 [Q2 Q3]] [A1 [A2 A3]] [B1 [B2 B3]]. unfold s_finv, s_fin, s_bound, rv, vsub in *. cbn [vx vy vz] in *.
  assert (G : forall x y : F64, fin x = true -> fin y = true -> Rabs (B2R x) <= bpow radix2 400 -> Rabs (B2R y) <= bpow radix2 400 -> fin (nsub x y) = true /\ Rabs (B2R (nsub x y)) <= bpow radix2 500 /\ B2R (nsub x y) = rnd (B2R x - B2R y)).
  { intros x y X Y HX HY. assert (H : Rabs (B2R x - B2R y) <= bpow radix2 500).
    { unfold Rminus. eapply Rle_trans; [apply Rabs_triang|]. rewrite Rabs_Ropp. apply Rle_trans with (bpow radix2 1 * bpow radix2 400); [change (bpow radix2 1) with 2; lra|]. rewrite <- bpow_plus. apply bpow_le. lia. }
    destruct (sub_R x y X Y) as [F E]; [eapply Rle_trans; [exact H|]; unfold big; apply bpow_le; lia|]. split; auto. split; auto. rewrite E. apply abs_round_le_generic; auto; try apply valid_rnd_N; [apply fexp_correct; reflexivity|].
    apply generic_format_bpow. unfold SpecFloat.fexp, SpecFloat.emin. lia. }
  destruct (G _ _ P1 Q1 A1 B1) as [F1 [C1 D1]], (G _ _ P2 Q2 A2 B2) as [F2 [C2 D2]], (G _ _ P3 Q3 A3 B3) as [F3 [C3 D3]]. split; auto. split; auto. f_equal; auto.
Qed.
(** two equal corners: the area is exactly zero, and the normal is NaN in all components *)
Theorem C117_degenerate : forall (m : mesh F64) (i : N) (a b c : vec3 F64), s_corners m (N.to_nat i) a b c -> s_finv a -> s_finv b -> s_finv c ->
  s_bound (bpow radix2 400) (rv a) -> s_bound (bpow radix2 400) (rv b) -> s_bound (bpow radix2 400) (rv c) -> s_same a b \/ s_same a c \/ s_same b c ->
  s_fin (triangleArea a b c) /\ B2R (triangleArea a b c) = 0 /\ exists n, getTriangleNormal m i = Ret n /\ s_nanv n.
Proof.
  intros m i a b c [x [y [z [T [PA [PB PC]]]]]] FA FB FC BA BB BC H. unfold s_same in H.
  assert (ZZ : forall p q, p = q -> rnd (p - q) = 0) by (intros p q ->; rewrite Rminus_diag_eq by reflexivity; apply rnd_0).
  assert (G : forall p q r s : vec3 F64, s_finv p -> s_finv q -> s_finv r -> s_finv s -> s_bound (bpow radix2 400) (rv p) -> s_bound (bpow radix2 400) (rv q) -> s_bound (bpow radix2 400) (rv r) -> s_bound (bpow radix2 400) (rv s) ->
     rv p = rv q \/ rv r = rv s \/ (rv p = rv r /\ rv q = rv s) -> let x := vcross (vsub p q) (vsub r s) in Z0 (vx x) /\ Z0 (vy x) /\ Z0 (vz x)).
  { intros p q r s FP FQ FR FS BP BQ BR BS E. destruct (sub_val p q FP FQ BP BQ) as [F1 [B1 E1]]. destruct (sub_val r s FR FS BR BS) as [F2 [B2 E2]]. apply z_cross; auto.
    rewrite E1, E2. unfold s_cp. cbn [vx vy vz]. destruct E as [ -> |[ -> |[ -> -> ]]]; rewrite ?(Rminus_diag_eq _ _ eq_refl), ?rnd_0; f_equal; ring. }
  destruct (G a b a c) as [X1 [Y1 Z1]]; auto. { destruct H as [H|[H|H]]; auto. }
  destruct (G c a b a) as [X2 [Y2 Z2]]; auto. { destruct H as [H|[H|H]]; auto. }
  assert (AR : Z0 (triangleArea a b c)).
  { unfold triangleArea. destruct (z_length _ X1 Y1 Z1) as [FL EL]. destruct half_F as [FH EH]. destruct (mul_R _ _ FH FL) as [F E]; [rewrite EL, Rmult_0_r; apply big_nn|]. split; auto. rewrite E, EL, Rmult_0_r. apply rnd_0. }
  destruct AR as [A1 A2]. split; [exact A1|]. split; [exact A2|].
  eexists. split. { unfold getTriangleNormal, point_at. rewrite T. cbn [or_ub obind ti1 ti2 ti3]. rewrite PA. cbn [or_ub obind]. rewrite PB. cbn [or_ub obind]. rewrite PC. cbn [or_ub obind]. reflexivity. }
  pose proof (z_length _ X2 Y2 Z2) as ZL. unfold vnormalized. cbv zeta. unfold s_nanv. cbn [vx vy vz]. repeat split; apply z_nan; auto.
Qed.

(** ** matrices *)
Theorem C117_matrix : forall m : mat3 F64, (forall i, (i < 3)%nat -> s_finv (s_colF m i) /\ s_rangev (s_colF m i)) ->
  m3normalize m = m3normalized m /\
  forall i, (i < 3)%nat -> s_finv (s_colF (m3normalized m) i) /\ s_close (8 * uro) (rv (s_colF (m3normalized m) i)) (s_unit (s_col (rm m) i)).
Proof.
  intros m H. split; [reflexivity|]. intros i I. destruct (H i I) as [F R1]. destruct (normalized_b _ F R1) as [FN CN].
  destruct i as [|[|[|i]]]; [| | |lia]; (split; [exact FN|exact CN]).
Qed.
(** a rotation whose columns are scaled, given with a relative error e, is recovered up to 3 e + 8 u: what import.cpp relies on *)
Theorem C117_strip_scale : forall (m : mat3 F64) (q : mat3 R) (s : vec3 R) (e : R), rotation q -> 0 <= e <= / 4 ->
  (forall i, (i < 3)%nat -> s_finv (s_colF m i) /\ bpow radix2 (-400) <= vget s i <= bpow radix2 400 /\
     s_close (e * vget s i) (rv (s_colF m i)) (V3 (vget s i * vx (s_col q i)) (vget s i * vy (s_col q i)) (vget s i * vz (s_col q i)))) ->
  forall i, (i < 3)%nat -> s_finv (s_colF (m3normalized m) i) /\ s_close (3 * e + 8 * uro) (rv (s_colF (m3normalized m) i)) (s_col q i).
Proof.
  intros m q s e RQ E0 H i I. destruct (H i I) as [FM [SR CM]]. set (k := vget s i) in *. pose proof (bpow_gt_0 radix2 (-400)) as P4. assert (KP : 0 < k) by lra.
  assert (UQ : s_norm2 (s_col q i) = 1) by (destruct RQ; destruct i as [|[|i]]; cbn [s_col]; unfold s_norm2; auto).
  set (c := s_col q i) in *. set (y := V3 (k * vx c) (k * vy c) (k * vz c)) in *.
  assert (NY : s_norm y = k). { unfold s_norm, y, s_dot. cbn [vx vy vz]. replace (k * vx c * (k * vx c) + k * vy c * (k * vy c) + k * vz c * (k * vz c)) with (k * k * s_norm2 c) by (unfold s_norm2, s_dot; ring). rewrite UQ, Rmult_1_r. apply sqrt_square. lra. }
  assert (EK : 0 <= e * k) by (apply Rmult_le_pos; lra). assert (EK' : e * k <= / 4 * k) by (apply Rmult_le_compat_r; lra).
  pose proof (unit_close _ _ (e * k) EK CM ltac:(lra)) as UC. rewrite NY in UC. replace (3 * (e * k) / k) with (3 * e) in UC by (field; lra).
  assert (UY : s_unit y = c). { unfold s_unit. change (sqrt (s_norm2 y)) with (s_norm y). rewrite NY. unfold y. cbn [vx vy vz]. destruct c as [c1 c2 c3]. cbn [vx vy vz]. f_equal; field; lra. }
  rewrite UY in UC.
  pose proof (close_dist _ _ _ EK CM) as DD. pose proof (norm_dist (rv (s_colF m i)) y) as N1. pose proof (norm_dist y (rv (s_colF m i))) as N2. rewrite dist_sym in N2.
  assert (RG : s_rangev (s_colF m i)).
  { unfold s_rangev. rewrite <- norm_sq. set (n := s_norm (rv (s_colF m i))) in *. assert (L : / 2 * k <= n) by lra. assert (U : n <= 2 * k) by lra. split.
    - apply Rle_trans with ((/ 2 * bpow radix2 (-400)) * (/ 2 * bpow radix2 (-400))); [|apply Rmult_le_compat; lra].
      change (/ 2) with (bpow radix2 (-1)). rewrite <- !bpow_plus. apply bpow_le. lia.
    - apply Rle_trans with ((2 * bpow radix2 400) * (2 * bpow radix2 400)); [apply Rmult_le_compat; lra|]. change 2 with (bpow radix2 1). rewrite <- !bpow_plus. apply bpow_le. lia. }
  destruct (normalized_b _ FM RG) as [FN CN]. assert (CE : s_colF (m3normalized m) i = vnormalized (s_colF m i)) by (destruct i as [|[|[|i]]]; [reflexivity..|lia]).
  rewrite CE. split; [exact FN|]. assert (G : forall p x z, Rabs (p - x) <= 8 * uro -> Rabs (x - z) <= 3 * e -> Rabs (p - z) <= 3 * e + 8 * uro).
  { intros p x z H1 H2. replace (p - z) with ((p - x) + (x - z)) by ring. eapply Rle_trans; [apply Rabs_triang|]. lra. }
  destruct CN as [C1 [C2 C3]], UC as [U1 [U2 U3]]. unfold s_close. repeat split; eapply G; eauto.
Qed.

(** ** slivers: three points exactly on a line for which the area is positive and the normal is a unit vector *)
Definition p53 : F64 := nofZ 9007199254740992.
Definition sl1 : vec3 F64 := V3 (nopp p53) (nopp (nmul (nofZ 3) p53)) n0.
Definition sl2 : vec3 F64 := V3 (nofZ 1) (nofZ 3) n0.
Definition sl3 : vec3 F64 := V3 (nmul (nofZ 2) p53) (nmul (nofZ 6) p53) n0.
Definition sl_mesh : mesh F64 := MkMesh [sl1; sl2; sl3] [TI 0 1 2] n0 n0 [].
Ltac sfval := rewrite <- SF2R_B2SF; match goal with |- SF2R radix2 (B2SF ?x) = _ => let v := eval vm_compute in (B2SF x) in replace (B2SF x) with v by (vm_compute; reflexivity) end; unfold SF2R, F2R; cbn; lra.
Lemma sl_val : rv sl1 = V3 (-9007199254740992) (-27021597764222976) 0 /\ rv sl2 = V3 1 3 0 /\ rv sl3 = V3 18014398509481984 54043195528445952 0.
Proof. unfold rv, sl1, sl2, sl3. cbn [vx vy vz]. split; [|split]; f_equal; sfval. Qed.
Definition finb (v : vec3 F64) : bool := (fin (vx v) && fin (vy v) && fin (vz v))%bool.
Lemma finb_ok : forall v, finb v = true -> s_finv v.
Proof. intros v H. unfold finb in H. rewrite !andb_true_iff in H. unfold s_finv, s_fin. tauto. Qed.
Theorem C117_slivers : exists (m : mesh F64) (a b c : vec3 F64), s_corners m 0 a b c /\ s_finv a /\ s_finv b /\ s_finv c /\
  s_cp (s_diff (rv b) (rv a)) (s_diff (rv c) (rv a)) = V3 0 0 0 /\ s_fin (triangleArea a b c) /\ 1 < B2R (triangleArea a b c) /\
  exists n, getTriangleNormal m 0 = Ret n /\ s_finv n /\ Rabs (B2R (vz n)) = 1.
Proof.
  destruct sl_val as [E1 [E2 E3]]. exists sl_mesh, sl1, sl2, sl3. split. { exists 0%N, 1%N, 2%N. cbn. auto. }
  split; [apply finb_ok; vm_compute; reflexivity|]. split; [apply finb_ok; vm_compute; reflexivity|]. split; [apply finb_ok; vm_compute; reflexivity|].
  split. { rewrite E1, E2, E3. unfold s_cp, s_diff. cbn [vx vy vz]. f_equal; ring. }
  split; [unfold s_fin; vm_compute; reflexivity|]. split.
  - assert (FA : fin (triangleArea sl1 sl2 sl3) = true) by (vm_compute; reflexivity). destruct (ofZ_R 1 eq_refl) as [F1 V1]. assert (L : nltb (nofZ 1) (triangleArea sl1 sl2 sl3) = true) by (vm_compute; reflexivity).
    rewrite ltb_R in L by auto. rewrite V1 in L. unfold Rltb in L. destruct (Rlt_dec _ _) as [K|K]; [exact K|discriminate L].
  - eexists. split; [reflexivity|]. split; [apply finb_ok; vm_compute; reflexivity|].
    match goal with |- Rabs (B2R ?x) = 1 => assert (V : B2R x = 1 \/ B2R x = -1) end; [|destruct V as [ -> | -> ]; [apply Rabs_R1|rewrite Rabs_left by lra; lra]].
    (left; sfval) || (right; sfval).
Qed.
Print Assumptions C117_normal.
Print Assumptions C117_area.
Print Assumptions C117_degenerate.
Print Assumptions C117_matrix.
Print Assumptions C117_strip_scale.
Print Assumptions C117_slivers.

(** a right triangle with sides 3 and 4, a triangle with two equal corners, and a scaled quarter turn *)
Definition vz3 (x y z : Z) : vec3 F64 := V3 (nofZ x) (nofZ y) (nofZ z).
Lemma rvz3 : forall x y z, (Z.abs x < 2 ^ 53)%Z -> (Z.abs y < 2 ^ 53)%Z -> (Z.abs z < 2 ^ 53)%Z -> s_finv (vz3 x y z) /\ rv (vz3 x y z) = V3 (IZR x) (IZR y) (IZR z).
Proof. intros x y z X Y Z. destruct (ofZ_R x X), (ofZ_R y Y), (ofZ_R z Z). unfold vz3, s_finv, s_fin, rv. cbn [vx vy vz]. split; auto. f_equal; auto. Qed.
Lemma b400 : forall x, / 1000 <= x <= 1000 -> bpow radix2 (-400) <= x <= bpow radix2 400.
Proof.
  intros x H. split; [apply Rle_trans with (bpow radix2 (-10))|apply Rle_trans with (bpow radix2 10)]; try (apply bpow_le; lia).
  - change (bpow radix2 (-10)) with (/ IZR (2 ^ 10)). cbn. lra.
  - change (bpow radix2 10) with (IZR (2 ^ 10)). cbn. lra.
Qed.
Example C117_nonvacuous :
  (let m := MkMesh [vz3 1 1 1; vz3 4 1 1; vz3 1 5 1] [TI 0 1 2; TI 0 1 1] n0 n0 [] in
   s_corners m 0 (vz3 1 1 1) (vz3 4 1 1) (vz3 1 5 1) /\ s_fat 1 3 4 (vz3 1 1 1) (vz3 4 1 1) (vz3 1 5 1) /\ s_area (V3 1 1 1) (V3 4 1 1) (V3 1 5 1) = 6 /\
   s_corners m 1 (vz3 1 1 1) (vz3 4 1 1) (vz3 4 1 1) /\ s_same (vz3 4 1 1) (vz3 4 1 1)) /\
  (let m := M3 (nofZ 0) (nofZ (-3)) (nofZ 0) (nofZ 2) (nofZ 0) (nofZ 0) (nofZ 0) (nofZ 0) (nofZ 5) in
   forall i, (i < 3)%nat -> s_finv (s_colF m i) /\ bpow radix2 (-400) <= vget (V3 2 3 5) i <= bpow radix2 400 /\
     rv (s_colF m i) = let c := s_col (M3 0 (-1) 0 1 0 0 0 0 1) i in V3 (vget (V3 2 3 5) i * vx c) (vget (V3 2 3 5) i * vy c) (vget (V3 2 3 5) i * vz c)).
Proof.
  split.
  - cbv zeta. destruct (rvz3 1 1 1) as [F1 E1]; try lia. destruct (rvz3 4 1 1) as [F2 E2]; try lia. destruct (rvz3 1 5 1) as [F3 E3]; try lia.
    assert (NN : s_norm (s_cp (s_diff (V3 4 1 1) (V3 1 1 1)) (s_diff (V3 1 5 1) (V3 1 1 1))) = 12).
    { unfold s_norm, s_cp, s_diff, s_dot. cbn [vx vy vz]. replace (_ + _) with (12 * 12) by ring. apply sqrt_square. lra. }
    split; [exists 0%N, 1%N, 2%N; cbn; auto|]. split; [|split; [unfold s_area; rewrite NN; lra|split; [exists 0%N, 1%N, 1%N; cbn; auto|reflexivity]]].
    unfold s_fat. rewrite E1, E2, E3, NN. split; [auto|]. unfold s_bound, s_diff. cbn [vx vy vz]. pose proof (b400 3 ltac:(lra)). pose proof (b400 4 ltac:(lra)). pose proof (b400 (3 * 4) ltac:(lra)).
    repeat split; try lra; apply Rabs_le; lra.
  - cbv zeta. intros i I. destruct i as [|[|[|i]]]; [| | |lia]; cbn [s_colF s_col vget vx vy vz mxx mxy mxz myx myy myz mzx mzy mzz col1 col2 col3].
    + destruct (rvz3 0 2 0) as [F E]; try lia. split; [exact F|]. split; [apply b400; lra|]. fold (vz3 0 2 0). rewrite E. unfold col1. cbn [vx vy vz mxx myx mzx]. f_equal; ring.
    + destruct (rvz3 (-3) 0 0) as [F E]; try lia. split; [exact F|]. split; [apply b400; lra|]. fold (vz3 (-3) 0 0). rewrite E. unfold col2. cbn [vx vy vz mxy myy mzy]. f_equal; ring.
    + destruct (rvz3 0 0 5) as [F E]; try lia. split; [exact F|]. split; [apply b400; lra|]. fold (vz3 0 0 5). rewrite E. unfold col3. cbn [vx vy vz mxz myz mzz]. f_equal; ring.
Qed.
