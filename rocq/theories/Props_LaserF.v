(** * The laser range finder on doubles (C109) *)
From Coq Require Import ZArith NArith List Bool Lia Reals Lra Psatz.
From Flocq Require Import Core BinarySingleNaN.
From Verif Require Import Num NumOrd MathTypes Outcome Mesh Spec SpecRound Laser SpecLaser Libm SpecLibm SpecLaserF
  P_Tac P_Math P_Trig P_Mesh P_MeshGeo P_Round P_OctF P_RayF P_QuatF P_KeyF P_F32 P_Depth P_Libm P_HeightF P_Laser P_Laser2 P_Laser3 P_LaserF P_LaserF2 P_LaserF3 Props_Libm.
Import ListNotations.
Local Open Scope R_scope.
Local Notation fin := (is_finite (prec := 53) (emax := 1024)).

(** every such configuration is accepted *)
Theorem C109_configured : forall L mn mx n, s_configF mn mx n ->
  exists l, @lrf_run F64 NumF (TrigF L) lrf_new [LBeams n; LAngles mn mx] = Ret l /\ l_amin l = mn /\ l_amax l = mx /\ l_num l = n /\ l_rmax l = n0.
Proof.
  intros L mn mx n CF. cbn [lrf_run]. pose proof CF as [_ [_ [_ [_ [_ [NB _]]]]]].
  assert (E : @lrf_step F64 NumF (TrigF L) lrf_new (LBeams n) = Ret (LRF n0 n0 n0 n0 n [] [] n0 0)).
  { cbn [lrf_step]. unfold setNumBeams. rewrite u32_small by lia. cbn [lrf_new l_amin l_amax l_rmin l_rmax l_angles l_rays l_incr l_half l_num].
    assert (Z : nltb n0 (nsub n0 n0 : F64) = false) by (vm_compute; reflexivity). rewrite Z, andb_false_r. reflexivity. }
  rewrite E. cbn [obind lrf_step]. unfold setAngleLimits. cbn [l_amin l_amax l_num l_rmin l_rmax l_angles l_rays l_incr l_half].
  destruct (incr_near _ _ _ CF) as [_ [_ P]]. rewrite P. destruct (N.ltb_spec 0 n); [|lia]. cbn [andb].
  destruct (calc_F L (LRF mn mx n0 n0 n [] [] n0 0) CF) as [l' H']. rewrite H'. cbn [obind]. exists l'. split; auto. pose proof (calcT _ _ H') as [A [B [D _]]]. cbn in A, B, D. repeat split; auto.
  unfold calculateRays in H'. destruct (or_ub _); try discriminate. cbn [obind] in H'. injection H' as <-. reflexivity.
Qed.
(** after every history: beam i within 9 i + 48 units of 2^-53, its direction within c + 9 i + 51 units *)
Theorem C109_table : forall c L ops l i, s_libm c L -> 0 <= c <= 1000 -> @lrf_run F64 NumF (TrigF L) lrf_new ops = Ret l -> s_configF (l_amin l) (l_amax l) (l_num l) -> (i < N.to_nat (l_num l))%nat ->
  let b := s_beamF (l_amin l) (l_amax l) (l_num l) i in
  exists a r, nth_error (l_angles l) i = Some a /\ getRayDirection l (N.of_nat i) = Ret r /\ s_fin a /\ s_finv r /\
    Rabs (B2R a - b) <= (9 * INR i + 48) * uro /\ s_close ((c + 9 * INR i + 51) * uro) (rv r) (V3 (cos b) (sin b) 0) /\ (i = 0%nat -> a = l_amin l).
Proof.
  intros c L ops l i HL C RUN CF I0 b. destruct (beam_nearF L ops l RUN CF i I0) as [a [NA [FA HA]]]. destruct (ray_nearF c L HL C ops l RUN CF i I0) as [r [NR [[FX HX] [[FY HY] [FZ HZ]]]]].
  exists a, r. split; auto. split; [unfold getRayDirection; rewrite Nat2N.id, NR; reflexivity|]. split; [exact FA|]. split; [split; [exact FX|split; [exact FY|exact FZ]]|]. split; [exact HA|]. split.
  - pose proof (pos_INR i). pose proof uro_pos. split; [exact HX|]. split; [exact HY|]. unfold rv. cbn [vz]. eapply Rle_trans; [exact HZ|]. apply Rmult_le_pos; lra.
  - intros ->. destruct (tbl L ops l RUN CF) as [_ [E2 _]]. rewrite E2 in NA. rewrite nth_beams in NA by auto. injection NA as <-. reflexivity.
Qed.
(** the index of a direction that is off the beams is exact *)
Theorem C109_index : forall L ops l a, @lrf_run F64 NumF (TrigF L) lrf_new ops = Ret l -> s_configF (l_amin l) (l_amax l) (l_num l) ->
  s_fin a -> Rabs (B2R a) <= 8 -> s_off_beam (B2R (l_amin l)) (B2R (l_amax l)) (l_num l) (B2R a) ->
  exists k, getAngleUpperIndex l a = Ret k /\ s_first_above (s_beamF (l_amin l) (l_amax l) (l_num l)) (N.to_nat (l_num l)) (B2R a) (N.to_nat k).
Proof.
  intros L ops l a RUN CF FA AB [OFF CL]. unfold getAngleUpperIndex.
  rewrite (raw_nearF L ops l RUN CF a (B2R a) 0); auto; [|split; auto; unfold Rminus; rewrite Rplus_opp_r, Rabs_R0; lra|lra]. cbn [obind]. eexists. split; [reflexivity|].
  set (I := s_incr _ _ _) in *. pose proof (I_bounds l CF) as [I0 _]. fold I in I0.
  assert (RS : forall k, (Ztrunc ((B2R a - B2R (l_amin l)) / I) + 1 <= Z.of_nat k)%Z <-> B2R a < s_beamF (l_amin l) (l_amax l) (l_num l) k).
  { intros k. unfold s_beamF, s_beam. fold I. apply raw_spec; auto. lra. }
  set (z := (Ztrunc _ + 1)%Z) in *. split; [lia|]. split.
  - intros i Hi. assert (N : ~ (z <= Z.of_nat i)%Z) by lia. rewrite RS in N. lra.
  - intros Hk. apply RS. lia.
Qed.
Theorem C109_index_point : forall c L ops l (x y : F64) a, s_libm c L -> 0 <= c <= 1000 -> @lrf_run F64 NumF (TrigF L) lrf_new ops = Ret l -> s_configF (l_amin l) (l_amax l) (l_num l) ->
  s_fin x -> s_fin y -> s_angle (V2 (B2R x) (B2R y)) a -> a < PI -> s_off_beam (B2R (l_amin l)) (B2R (l_amax l)) (l_num l) a ->
  exists k, @getAngleUpperIndexXY F64 NumF (TrigF L) l x y = Ret k /\ s_first_above (s_beamF (l_amin l) (l_amax l) (l_num l)) (N.to_nat (l_num l)) a (N.to_nat k).
Proof.
  intros c L ops l x y a HL C RUN CF FX FY AV LA [OFF CL]. unfold getAngleUpperIndexXY, getAngleUpperIndex. destruct HL as [_ [_ HA]].
  destruct (HA y x a FY FX (angle_off _ _ _ AV LA) AV) as [FA EA]. destruct AV as [[A0 A1] _]. pose proof PI_4.
  rewrite (raw_nearF L ops l RUN CF _ a (4 * c * uro)); auto; [|split; auto|unfold uro; lra|apply Rabs_le; lra]. cbn [obind]. eexists. split; [reflexivity|].
  set (I := s_incr _ _ _) in *. pose proof (I_bounds l CF) as [I0 _]. fold I in I0.
  assert (RS : forall k, (Ztrunc ((a - B2R (l_amin l)) / I) + 1 <= Z.of_nat k)%Z <-> a < s_beamF (l_amin l) (l_amax l) (l_num l) k).
  { intros k. unfold s_beamF, s_beam. fold I. apply raw_spec; auto. lra. }
  set (z := (Ztrunc _ + 1)%Z) in *. split; [lia|]. split.
  - intros i Hi. assert (N : ~ (z <= Z.of_nat i)%Z) by lia. rewrite RS in N. lra.
  - intros Hk. apply RS. lia.
Qed.
(** a range becomes the point at that distance on its beam *)
Theorem C109_point : forall c L ops l i (r : F64), s_libm c L -> 0 <= c <= 1000 -> @lrf_run F64 NumF (TrigF L) lrf_new ops = Ret l -> s_configF (l_amin l) (l_amax l) (l_num l) -> (i < N.to_nat (l_num l))%nat ->
  s_fin r -> Rabs (B2R r) <= big / 8 -> let b := s_beamF (l_amin l) (l_amax l) (l_num l) i in
  exists v, rangeToPoint l r (N.of_nat i) = Ret v /\ s_finv v /\ s_close ((c + 9 * INR i + 53) * uro * Rabs (B2R r) + eta) (rv v) (V3 (B2R r * cos b) (B2R r * sin b) 0).
Proof.
  intros c L ops l i r HL C RUN CF I0 FR RB b. destruct (ray_nearF c L HL C ops l RUN CF i I0) as [d [NR [NX [NY NZ]]]].
  unfold rangeToPoint. rewrite Nat2N.id, NR. cbn [or_ub obind]. exists (vscale d r). split; auto. pose proof (i_small l CF i I0) as IB. pose proof uro_pos as U0. pose proof (Rabs_pos (B2R r)) as R0'. pose proof eta_pos as ET.
  set (e := (c + 9 * INR i + 51) * uro) in *. assert (EB : e <= / 1000). { unfold e. apply Rle_trans with (200000000 * uro); [apply Rmult_le_compat_r; lra|unfold uro; lra]. }
  destruct (scaled_near e _ _ r NX (cos_1 _) EB FR RB) as [FX HX]. destruct (scaled_near e _ _ r NY (sin_1 _) EB FR RB) as [FY HY].
  destruct (scaled_near 0 _ _ r NZ ltac:(rewrite Rabs_R0; lra) ltac:(lra) FR RB) as [FZ HZ].
  unfold vscale, s_finv, s_close, rv, s_fin. cbn [vx vy vz]. split; auto.
  assert (G : (e + 2 * uro) * Rabs (B2R r) + eta <= (c + 9 * INR i + 53) * uro * Rabs (B2R r) + eta) by (unfold e; right; ring).
  split; [|split]; (eapply Rle_trans; [|exact G]).
  - rewrite (Rmult_comm (B2R r)). exact HX.
  - rewrite (Rmult_comm (B2R r)). exact HY.
  - rewrite Rmult_0_l in HZ. eapply Rle_trans; [exact HZ|]. assert (0 <= e) by (unfold e; apply Rmult_le_pos; lra). assert (0 <= e * Rabs (B2R r)) by (apply Rmult_le_pos; lra). lra.
Qed.
(** drawing a segment: exactly the beams it lights change, to within the stated distance *)
Theorem C109_line : forall c L ops l p q ranges M k, s_libm c L -> 0 <= c <= 1000 -> @lrf_run F64 NumF (TrigF L) lrf_new ops = Ret l ->
  let mn := l_amin l in let mx := l_amax l in let beam := s_beamF mn mx (l_num l) in let n := N.to_nat (l_num l) in
  s_configF mn mx (l_num l) -> - PI < B2R mn -> B2R mx <= PI -> s_fin (l_rmax l) -> B2R (l_rmax l) <= 0 ->
  s_finv2 p -> s_finv2 q -> s_bound2 M (s_r2 p) -> s_bound2 M (s_r2 q) -> 1 <= M <= 1000000 -> / 1000 <= k <= 1 ->
  / 1000000 <= sqrt (s_len2 (s_from (s_r2 p) (s_r2 q))) -> s_fairF (B2R mn) (B2R mx) (l_num l) (s_r2 p) (s_r2 q) -> s_steep M k beam n (s_r2 p) (s_r2 q) -> (n <= length ranges)%nat ->
  exists ranges', @lrf_renderLine F64 NumF (TrigF L) l p q ranges = Ret ranges' /\
    s_drawnF beam n (s_r2 p) (s_r2 q) (fun i d => (4 * c + 30 * INR i + 200) * uro * M / k + d / 16777216) ranges ranges'.
Proof. intros c L ops l p q ranges M k HL C RUN. apply (line_F c L ops l p q ranges M k HL C RUN). Qed.

(** nine beams from -1 to 1 rad, a wall at distance one *)
Lemma ex_config : s_configF (nofZ (-1)) (nofZ 1) 9.
Proof.
  destruct (ofZ_R (-1) eq_refl) as [F1 E1]. destruct (ofZ_R 1 eq_refl) as [F2 E2]. unfold s_configF. rewrite E1, E2. unfold s_incr. cbn [N.leb]. 
  split; [exact F1|]. split; [exact F2|]. split; [apply Rabs_le; lra|]. split; [apply Rabs_le; lra|]. split; [lra|]. split; [lia|]. cbn. lra.
Qed.
Lemma ex_off : forall a, (7851 / 10000 <= a <= 7857 / 10000 \/ 7851 / 10000 <= - a <= 7857 / 10000) -> s_off_beam (-1) 1 9 a.
Proof.
  intros a H. assert (I : s_incr (-1) 1 9 = / 4) by (unfold s_incr; cbn; lra). unfold s_off_beam, s_clear. rewrite I. split; [|lra]. intros j.
  destruct (Z_le_gt_dec j 0) as [J|J]; [apply IZR_le in J; rewrite Rabs_pos_eq; lra|]. assert (J1 : (1 <= j)%Z) by lia. apply IZR_le in J1. destruct H as [H|H].
  - destruct (Z_le_gt_dec j 7) as [K|K]; [apply IZR_le in K; rewrite Rabs_pos_eq; lra|]. assert (K1 : (8 <= j)%Z) by lia. apply IZR_le in K1. rewrite Rabs_minus_sym, Rabs_pos_eq; lra.
  - rewrite Rabs_minus_sym, Rabs_pos_eq; lra.
Qed.
Lemma ex_angles : s_angle (V2 1 (-1)) (- (PI / 4)) /\ s_angle (V2 1 1) (PI / 4).
Proof.
  assert (S : sqrt 2 * (/ sqrt 2) = 1) by (apply Rinv_r; pose proof Rlt_sqrt2_0; lra). pose proof Rlt_sqrt2_0 as S0. pose proof PI_RGT_0 as P0.
  assert (C4 : cos (PI / 4) = / sqrt 2) by (rewrite cos_PI4; unfold Rdiv; ring). assert (S4 : sin (PI / 4) = / sqrt 2) by (rewrite sin_PI4; unfold Rdiv; ring).
  split; (split; [lra|]); exists (sqrt 2); (split; [lra|]); rewrite ?cos_neg, ?sin_neg, C4, S4; f_equal; lra.
Qed.
Example C109_nonvacuous : exists l, let TL := TrigF cr_libm in s_libm 2 cr_libm /\ lrf_run lrf_new [LBeams 9; LAngles (nofZ (-1)) (nofZ 1)] = Ret l /\ s_configF (l_amin l) (l_amax l) (l_num l) /\
  - PI < B2R (l_amin l) /\ B2R (l_amax l) <= PI /\ s_fin (l_rmax l) /\ B2R (l_rmax l) <= 0 /\
  let p : vec2 F64 := V2 (nofZ 1) (nofZ (-1)) in let q : vec2 F64 := V2 (nofZ 1) (nofZ 1) in
  s_finv2 p /\ s_finv2 q /\ s_bound2 1 (s_r2 p) /\ s_bound2 1 (s_r2 q) /\ / 1000000 <= sqrt (s_len2 (s_from (s_r2 p) (s_r2 q))) /\
  s_fairF (B2R (l_amin l)) (B2R (l_amax l)) (l_num l) (s_r2 p) (s_r2 q) /\ s_steep 1 (/ 1000) (s_beamF (l_amin l) (l_amax l) (l_num l)) (N.to_nat (l_num l)) (s_r2 p) (s_r2 q) /\
  s_lit (s_beamF (l_amin l) (l_amax l) (l_num l) 4) (s_r2 p) (s_r2 q) 1.
Proof.
  destruct (C109_configured cr_libm (nofZ (-1)) (nofZ 1) 9 ex_config) as [l [E [A [B [D G]]]]]. exists l. intros TL. split; [apply cr_libm_ok|]. split; [exact E|]. rewrite A, B, D, G. split; [apply ex_config|].
  destruct (ofZ_R (-1) eq_refl) as [F1 E1]. destruct (ofZ_R 1 eq_refl) as [F2 E2]. destruct zero_R as [FZ EZ]. rewrite E1, E2, EZ. pose proof PI2_3_2 as P3. pose proof pi_lo as PL. pose proof pi_up as PU.
  split; [lra|]. split; [lra|]. split; [exact FZ|]. split; [lra|]. intros p q.
  assert (PE : s_r2 p = V2 1 (-1)) by (unfold s_r2, p; cbn [v2x v2y]; rewrite E1, E2; reflexivity). assert (QE : s_r2 q = V2 1 1) by (unfold s_r2, q; cbn [v2x v2y]; rewrite E2; reflexivity). rewrite PE, QE.
  split; [split; [exact F2|exact F1]|]. split; [split; [exact F2|exact F2]|]. split; [split; cbn; apply Rabs_le; lra|]. split; [split; cbn; apply Rabs_le; lra|].
  assert (LE : sqrt (s_len2 (s_from (V2 1 (-1)) (V2 1 1))) = 2). { unfold s_len2, s_from. cbn [v2x v2y]. replace ((1 - 1) * (1 - 1) + (1 - -1) * (1 - -1)) with (2 * 2) by ring. apply sqrt_square. lra. }
  rewrite LE. destruct ex_angles as [AP AQ]. assert (I : s_incr (-1) 1 9 = / 4) by (unfold s_incr; cbn; lra).
  split; [lra|]. split; [|split].
  - exists (- (PI / 4)), (PI / 4). split; auto. split; auto. split; [lra|]. split; [lra|]. split; [apply ex_off; lra|]. split; [apply ex_off; lra|]. rewrite I.
    replace (PI / 4 - - (PI / 4)) with (PI / 2) by field. rewrite (Rabs_pos_eq (PI / 2)) by lra. rewrite Rabs_minus_sym, Rabs_pos_eq by lra. lra.
  - intros i d I0 [_ [D0 [t [_ EQ]]]]. unfold s_beamF, s_beam in *. rewrite E1, E2, I in *. set (b := -1 + INR i * / 4) in *. rewrite LE. unfold s_along, s_turn, s_from in *. cbn [v2x v2y] in *. injection EQ as Q1 Q2.
    assert (BB : -1 <= b <= 1). { assert (INR i <= 8). { replace 8 with (INR 8) by (cbn; lra). apply le_INR. cbn in I0. lia. } pose proof (pos_INR i). unfold b. lra. }
    assert (CB : 1 / 2 <= cos b). { rewrite <- cos_PI3. destruct (Rle_dec 0 b); [apply cos_decr_1; lra|]. rewrite <- (cos_neg b). apply cos_decr_1; lra. }
    pose proof (cos_1 b) as C1. apply Rabs_le_inv in C1. split; [nra|lra].
  - unfold s_beamF, s_beam. rewrite E1, E2, I. replace (-1 + INR 4 * / 4) with 0 by (cbn; lra). unfold s_lit, s_turn, s_along. cbn [v2x v2y]. split; [lra|]. split; [lra|]. exists (1 / 2). split; [lra|]. rewrite cos_0, sin_0. f_equal; lra.
Qed.
Print Assumptions C109_configured.
Print Assumptions C109_table.
Print Assumptions C109_index.
Print Assumptions C109_index_point.
Print Assumptions C109_point.
Print Assumptions C109_line.
