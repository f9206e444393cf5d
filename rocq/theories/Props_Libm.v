(** * Property C108: trigonometry on doubles, for every sufficiently accurate mathematics library *)
From Coq Require Import ZArith NArith Reals Lra Lia Bool List.
From Flocq Require Import Core BinarySingleNaN.
From Verif Require Import Num MathTypes Outcome Mesh Box Spec SpecRound SpecLaser Libm SpecLibm P_Tac P_Math P_Trig P_Laser2 P_Laser3 P_Round P_Round3 P_OctF P_QuatF P_Libm Shapes SpecShapes P_Shapes Props_Round.
Import ListNotations.
Local Open Scope R_scope.

(** the constant of the model is the double nearest to pi *)
Theorem C108_pi : s_fin f_pi /\ Rabs (B2R f_pi - PI) <= 2 * uro.
Proof. exact f_pi_near. Qed.
(** setRPY: finite, close to the exact rotation, and orthonormal up to rounding *)
Theorem C108_rpy : forall c L (r p y : F64), s_libm c L -> 0 <= c <= 1000000 -> s_fin r -> s_fin p -> s_fin y ->
  let m := @m3rpy F64 NumF (TrigF L) r p y in
  s_finm m /\ s_closem ((6 * c + 10) * uro) (rm m) (s_rpy (B2R r) (B2R p) (B2R y)) /\ s_ortho (7 * ((6 * c + 10) * uro)) (rm m).
Proof.
  intros c L r p y HL C FR FP FY m. destruct (rpy_near c L r p y HL C FR FP FY) as [F H]. split; [exact F|]. split; [exact H|].
  eapply near_ortho; [apply rpy_rotation|exact H|]. unfold uro. lra.
Qed.
(** points transformed by Transform3(x, y, z, roll, pitch, yaw) *)
Theorem C108_apply : forall c L (x y z roll pitch yaw : F64) (v : vec3 F64) M N, s_libm c L -> 0 <= c <= 1000000 ->
  s_finv (V3 x y z) -> s_fin roll -> s_fin pitch -> s_fin yaw -> s_finv v -> s_bound M (rv v) -> s_bound N (rv (V3 x y z)) -> M <= big / 16 -> N <= big / 8 ->
  let v' := tapply (@tmake F64 NumF (TrigF L) x y z roll pitch yaw) v in
  s_finv v' /\ s_close ((18 * c + 56) * uro * M + uro * N + 7 * eta) (rv v')
    (let w := rot_z (B2R yaw) (rot_y (B2R pitch) (rot_x (B2R roll) (rv v))) in V3 (vx w + B2R x) (vy w + B2R y) (vz w + B2R z)).
Proof.
  intros c L x y z roll pitch yaw v M N HL C FT FR FP FY FV BM BN LM LN. destruct (rpy_near c L roll pitch yaw HL C FR FP FY) as [F H].
  set (m := m3rpy roll pitch yaw) in *. pose proof (rot_bound _ _ _ (rpy_rotation _ _ _) H ltac:(unfold uro; lra)) as BA.
  destruct (C85_apply (T3 m (V3 x y z)) v 2 M N F FT FV BA BM BN ltac:(lra) LN) as [FA CA]. cbv zeta. unfold tmake. fold m. split; [exact FA|].
  pose proof (moved_close _ M _ _ (rv (V3 x y z)) (rv v) H BM) as MC. rewrite rpy_moved in MC. cbv zeta in MC. cbn [tR MathTypes.tt] in CA.
  eapply close_le; [eapply close_trans; [exact CA|exact MC]|]. right. ring.
Qed.
(** getRPY of any matrix close to a rotation away from the singularity *)
Theorem C108_getRPY : forall c L (m : mat3 F64) v r p y e k, s_libm c L -> 0 <= c <= 1000 -> s_finm m -> s_closem e (rm m) (s_rpy r p y) ->
  - PI / 2 < p < PI / 2 -> / 1000000 <= k <= cos p -> e <= k / 1000 -> Rabs r + 4 * e / k < PI -> Rabs y + 4 * e / k < PI ->
  let '(r', p', y') := @tgetRPY F64 NumF (TrigF L) (T3 m v) in
  (s_fin r' /\ Rabs (B2R r' - r) <= 4 * e / k + 4 * c * uro) /\ (s_fin p' /\ Rabs (B2R p' - p) <= 8 * e + (4 * c + 20) * uro) /\
  (s_fin y' /\ Rabs (B2R y' - y) <= 4 * e / k + 4 * c * uro).
Proof. exact getRPY_near. Qed.
(** the angles of a transform are recovered *)
Theorem C108_round_trip : forall c L (x y z roll pitch yaw : F64) k, s_libm c L -> 0 <= c <= 1000 -> s_fin roll -> s_fin pitch -> s_fin yaw ->
  Rabs (B2R roll) <= 314 / 100 -> Rabs (B2R yaw) <= 314 / 100 -> - PI / 2 < B2R pitch < PI / 2 -> / 1000000 <= k <= cos (B2R pitch) ->
  let '(r', p', y') := @tgetRPY F64 NumF (TrigF L) (@tmake F64 NumF (TrigF L) x y z roll pitch yaw) in
  (s_fin r' /\ Rabs (B2R r' - B2R roll) <= (28 * c + 40) * uro / k) /\ (s_fin p' /\ Rabs (B2R p' - B2R pitch) <= (52 * c + 100) * uro) /\
  (s_fin y' /\ Rabs (B2R y' - B2R yaw) <= (28 * c + 40) * uro / k).
Proof.
  intros c L x y z roll pitch yaw k HL C FR FP FY BR BY P K. destruct (rpy_near c L roll pitch yaw HL ltac:(lra) FR FP FY) as [F H].
  pose proof (COS_bound (B2R pitch)) as CB. pose proof uro_pos as U.
  set (e := (6 * c + 10) * uro) in *. assert (E0 : 0 <= e) by (unfold e; apply Rmult_le_pos; lra). assert (E1 : e <= / 1000000000000) by (unfold e, uro; lra).
  assert (EK : 4 * e / k <= / 200000).
  { apply Rle_trans with (4 * e * 1000000); [apply Rmult_le_compat_l; [lra|]|lra]. rewrite <- (Rinv_inv 1000000). apply Rinv_le_contravar; lra. }
  pose proof pi_lo as PL.
  pose proof (getRPY_near c L _ (V3 x y z) _ _ _ e k HL C F H P K ltac:(lra) ltac:(lra) ltac:(lra)) as G. unfold tmake.
  destruct (tgetRPY _) as [[r' p'] y']. destruct G as [G1 [G2 G3]].
  assert (Q : 4 * e / k + 4 * c * uro <= (28 * c + 40) * uro / k).
  { assert (4 * c * uro <= 4 * c * uro / k); [|unfold e in *; replace ((28 * c + 40) * uro / k) with (4 * ((6 * c + 10) * uro) / k + 4 * c * uro / k) by (field; lra); lra].
    assert (1 <= / k) by (rewrite <- Rinv_1; apply Rinv_le_contravar; lra). assert (0 <= 4 * c * uro) by (apply Rmult_le_pos; lra). unfold Rdiv. nra. }
  split; [exact (near_le _ _ _ _ G1 Q)|]. split; [|exact (near_le _ _ _ _ G3 Q)]. refine (near_le _ _ _ _ G2 _). unfold e. lra.
Qed.
(** the planar transform: rotation matrix and angle *)
Theorem C108_planar : forall c L (x y yaw : F64), s_libm c L -> 0 <= c <= 1000 -> s_fin yaw ->
  let t := @t2make F64 NumF (TrigF L) x y yaw in
  (s_fin (m2xx (t2R t)) /\ s_fin (m2xy (t2R t)) /\ s_fin (m2yx (t2R t)) /\ s_fin (m2yy (t2R t))) /\
  Rabs (B2R (m2xx (t2R t)) - cos (B2R yaw)) <= c * uro /\ Rabs (B2R (m2xy (t2R t)) + sin (B2R yaw)) <= c * uro /\
  Rabs (B2R (m2yx (t2R t)) - sin (B2R yaw)) <= c * uro /\ Rabs (B2R (m2yy (t2R t)) - cos (B2R yaw)) <= c * uro /\
  (Rabs (B2R yaw) <= 314 / 100 -> let yaw' := @t2rotation F64 (TrigF L) t in s_fin yaw' /\ Rabs (B2R yaw' - B2R yaw) <= 8 * c * uro).
Proof.
  intros c L x y yaw HL C FY t. pose proof HL as [LS [LC _]]. destruct (LS yaw FY) as [F1 H1]. destruct (LC yaw FY) as [F2 H2]. unfold t, t2make, t2rot, t2rotation. cbn [t2R m2xx m2xy m2yx m2yy nsin ncos natan2 TrigF].
  destruct (opp_R _ F1) as [F3 E3]. split; [repeat split; auto|]. split; [exact H2|]. split; [rewrite E3; replace (- B2R (lm_sin L yaw) + sin (B2R yaw)) with (- (B2R (lm_sin L yaw) - sin (B2R yaw))) by ring; rewrite Rabs_Ropp; exact H1|].
  split; [exact H1|]. split; [exact H2|]. intros B. pose proof pi_lo as PL. assert (U : c * uro <= / 1000000000000) by (unfold uro; lra).
  assert (N2 : near (c * uro) (lm_cos L yaw) (1 * cos (B2R yaw))) by (rewrite Rmult_1_l; split; auto). assert (N1 : near (c * uro) (lm_sin L yaw) (1 * sin (B2R yaw))) by (rewrite Rmult_1_l; split; auto).
  destruct (atan2_near c L _ _ 1 (B2R yaw) (c * uro) HL N2 N1 ltac:(lra) ltac:(lra) ltac:(lra)) as [F H]. split; [exact F|]. lra.
Qed.
(** createCylinder on doubles: every corner is close to the corner of the regular polygon *)
Theorem C108_cylinder : forall c L fuel (s : shape F64) (radius height : F64) n i M, s_libm c L -> 0 <= c <= 1000 -> s_fin radius -> s_fin height ->
  Rabs (B2R radius) <= M -> Rabs (B2R height) <= M -> M <= big / 8 -> (3 <= n)%nat -> (N.of_nat n <= 2 ^ 31)%N -> (n < fuel)%nat -> (i < n)%nat ->
  exists s' lo hi q, @createCylinder F64 NumF (TrigF L) fuel s radius height (N.of_nat n) = Ret s' /\
    nth_error (m_points (s_mesh s')) (2 * i) = Some lo /\ nth_error (m_points (s_mesh s')) (2 * i + 1) = Some hi /\ nth_error (s_regular n (B2R radius)) i = Some q /\
    s_finv lo /\ s_finv hi /\ s_close ((c + 34) * uro * M + eta) (rv lo) (V3 (v2x q) (v2y q) (- B2R height / 2)) /\ s_close ((c + 34) * uro * M + eta) (rv hi) (V3 (v2x q) (v2y q) (B2R height / 2)).
Proof.
  intros c L fuel s radius height n i M HL C FR FH BR BH LM N3 NB F I. destruct (@cyl_mesh F64 NumF (TrigF L) fuel s radius height n) as [m [E [MP _]]]; [lia|auto..|].
  pose proof uro_pos as U. pose proof (Rabs_pos (B2R radius)) as R0. pose proof (Rabs_pos (B2R height)) as H0.
  destruct (corner_angle i n I NB) as [FA HA]. set (a := ndiv (nmul (nmul n2 f_pi) (nofZ (Z.of_N (N.of_nat i)))) (nofZ (Z.of_N (N.of_nat n)))) in *. set (A := 2 * PI * INR i / INR n) in *.
  pose proof HL as [LS [LC _]]. destruct (LS a FA) as [F1 H1]. destruct (LC a FA) as [F2 H2].
  assert (NS : near ((c + 32) * uro) (lm_sin L a) (sin A)).
  { split; auto. replace (B2R (lm_sin L a) - sin A) with ((B2R (lm_sin L a) - sin (B2R a)) + (sin (B2R a) - sin A)) by ring. eapply Rle_trans; [apply Rabs_triang|]. pose proof (sin_lip (B2R a) A). lra. }
  assert (NC : near ((c + 32) * uro) (lm_cos L a) (cos A)).
  { split; auto. replace (B2R (lm_cos L a) - cos A) with ((B2R (lm_cos L a) - cos (B2R a)) + (cos (B2R a) - cos A)) by ring. eapply Rle_trans; [apply Rabs_triang|]. pose proof (cos_lip (B2R a) A). lra. }
  assert (SM : (c + 32) * uro <= / 1000) by (unfold uro; lra).
  assert (BL : forall r, 0 <= r <= M -> ((c + 32) * uro + 2 * uro) * r + eta <= (c + 34) * uro * M + eta) by (intros r R; assert (0 <= (c + 34) * uro) by (apply Rmult_le_pos; lra); nra).
  assert (NX := near_le _ _ _ _ (scaled_near _ _ _ radius NS (sin_1 A) SM FR ltac:(lra)) (BL _ (conj R0 BR))).
  assert (NY := near_le _ _ _ _ (scaled_near _ _ _ radius NC (cos_1 A) SM FR ltac:(lra)) (BL _ (conj R0 BR))).
  assert (ZL : uro * Rabs (B2R height) + eta <= (c + 34) * uro * M + eta).
  { assert (uro * Rabs (B2R height) <= uro * M) by (apply uro_le; auto). assert (0 <= (c + 33) * (uro * M)) by (apply Rmult_le_pos; [lra|apply Rmult_le_pos; lra]). lra. }
  destruct (opp_R height FH) as [FO EO].
  assert (NH := near_le _ _ _ _ (half_near height FH ltac:(lra)) ZL).
  assert (NL : near ((c + 34) * uro * M + eta) (ndiv (nopp height) n2) (- B2R height / 2)).
  { pose proof (half_near (nopp height) FO) as Q. rewrite EO, Rabs_Ropp in Q. exact (near_le _ _ _ _ (Q ltac:(lra)) ZL). }
  assert (NQ : nth_error (@cyl_pts F64 NumF (TrigF L) radius n) i = Some (V2 (nmul (lm_sin L a) radius) (nmul (lm_cos L a) radius))).
  { unfold cyl_pts. apply (map_nth_error (fun i => _)). rewrite (nth_error_nth' (seq 0 n) 0%nat) by (rewrite seq_length; auto). rewrite seq_nth by auto. reflexivity. }
  destruct (nth_pairs _ _ (fun p => V3 (v2x p) (v2y p) (ndiv (nopp height) n2)) (fun p => V3 (v2x p) (v2y p) (ndiv height n2)) _ _ _ NQ) as [P1 P2].
  exists (shape_setMesh s m). do 2 eexists. exists (V2 (sin A * B2R radius) (cos A * B2R radius)). split; [exact E|]. cbn [shape_setMesh s_mesh]. rewrite MP. unfold prism_pts.
  split; [exact P1|]. split; [exact P2|]. cbn [v2x v2y]. split.
  { unfold s_regular. rewrite (map_nth_error (fun i => V2 (sin (2 * PI * INR i / INR n) * B2R radius) (cos (2 * PI * INR i / INR n) * B2R radius)) i (seq 0 n) (d := i)); [reflexivity|].
    rewrite (nth_error_nth' (seq 0 n) 0%nat) by (rewrite seq_length; auto). rewrite seq_nth by auto. reflexivity. }
  destruct NX as [X1 X2]. destruct NY as [Y1 Y2]. destruct NH as [Z1 Z2]. destruct NL as [W1 W2].
  repeat split; cbn [vx vy vz rv]; auto.
Qed.
Print Assumptions C108_pi.
Print Assumptions C108_rpy.
Print Assumptions C108_apply.
Print Assumptions C108_getRPY.
Print Assumptions C108_round_trip.
Print Assumptions C108_planar.
Print Assumptions C108_cylinder.

(** a library meeting the contract: results rounded to the nearest multiple of 2^-60 and then to double *)
Definition fl (y : R) : F64 := binary_normalize 53 1024 prec64_gt0 emax64_gt mode_NE (ZnearestE (y * bpow radix2 60)) (-60) false.
Definition cr_libm : libm := Libm (fun x => fl (sin (B2R x))) (fun x => fl (cos (B2R x))) (fun y x => fl (Ratan2 (B2R y) (B2R x))).
Lemma fl_near : forall y B, Rabs y <= B -> 1 <= B <= 4 -> near (2 * B * uro) (fl y) y.
Proof.
  intros y B HB B4. unfold fl. set (k := ZnearestE (y * bpow radix2 60)).
  assert (K : Rabs (IZR k / bpow radix2 60 - y) <= bpow radix2 (-61)).
  { assert (Rabs (y * bpow radix2 60 - IZR k) <= / 2) by (apply Znearest_half).
    replace (IZR k / bpow radix2 60 - y) with (- (y * bpow radix2 60 - IZR k) * bpow radix2 (-60)) by (change (bpow radix2 (-60)) with (/ bpow radix2 60); field; apply Rgt_not_eq, bpow_gt_0).
    rewrite Rabs_mult, Rabs_Ropp, (Rabs_pos_eq (bpow radix2 (-60))) by apply bpow_ge_0. change (bpow radix2 (-61)) with (/ IZR (2 ^ 61)). change (bpow radix2 (-60)) with (/ IZR (2 ^ 60)). cbn. cbn in H. lra. }
  pose proof (binary_normalize_correct 53 1024 prec64_gt0 emax64_gt mode_NE k (-60) false) as BN. cbv zeta in BN.
  assert (FV : F2R (Float radix2 k (-60)) = IZR k / bpow radix2 60) by reflexivity. rewrite FV in BN. set (v := IZR k / bpow radix2 60) in *. fold (rnd v) in BN.
  pose proof uro_pos as U. pose proof u_small as US. pose proof eta_u as EU.
  assert (K' : Rabs (v - y) <= uro / 100) by (eapply Rle_trans; [exact K|]; unfold uro; change (bpow radix2 (-61)) with (/ IZR (2 ^ 61)); cbn; lra).
  assert (VB : Rabs v <= B + uro / 100) by (eapply Rabs_close; eauto).
  assert (RE : Rabs (rnd v - v) <= uro * (B + 1 / 10) + eta).
  { pose proof (rnd_err v). assert (uro * Rabs v <= uro * (B + 1 / 10)) by (apply uro_le; lra). lra. }
  assert (RB : Rabs (rnd v) < bpow radix2 1024).
  { apply Rle_lt_trans with 10; [|apply Rlt_trans with (bpow radix2 4); [cbn; lra|apply bpow_lt; lia]]. replace (rnd v) with ((rnd v - v) + v) by ring. eapply Rle_trans; [apply Rabs_triang|].
    assert (uro * (B + 1 / 10) <= uro * 5) by (apply uro_le; lra). lra. }
  change (round radix2 (SpecFloat.fexp 53 1024) (round_mode mode_NE) v) with (rnd v) in BN.
  rewrite Rlt_bool_true in BN by exact RB. destruct BN as [E [F _]]. split; [exact F|]. rewrite E.
  replace (rnd v - y) with ((rnd v - v) + (v - y)) by ring. eapply Rle_trans; [apply Rabs_triang|]. nra.
Qed.
Lemma cr_libm_ok : s_libm 2 cr_libm.
Proof.
  split; [|split].
  - intros x _. destruct (fl_near (sin (B2R x)) 1 (sin_1 _) ltac:(lra)) as [F H]. split; [exact F|]. cbn [lm_sin cr_libm]. lra.
  - intros x _. destruct (fl_near (cos (B2R x)) 1 (cos_1 _) ltac:(lra)) as [F H]. split; [exact F|]. cbn [lm_cos cr_libm]. lra.
  - intros y x a _ _ _ A. destruct (angle_s_ang _ _ A) as [EA _]. unfold s_ang in EA. cbn [v2x v2y] in EA. pose proof (atan2_range (B2R y) (B2R x)) as AR. rewrite EA in AR. cbn [lm_atan2 cr_libm].
    rewrite EA. pose proof PI_4. destruct (fl_near a 4) as [F H']; [apply Rabs_le; lra|lra|]. split; [exact F|]. lra.
Qed.
(** angles of -1, 1/4 and 1 radians meet the hypotheses *)
Example C108_nonvacuous : exists (r p y : F64), s_libm 2 cr_libm /\ s_fin r /\ s_fin p /\ s_fin y /\ B2R r = -1 /\ B2R p = 1 / 4 /\ B2R y = 1 /\ Rabs (-1) <= 314 / 100 /\ / 2 <= cos (B2R p) /\ - PI / 2 < B2R p < PI / 2.
Proof.
  destruct (ofZ_R (-1) eq_refl) as [F1 E1]. destruct (ofZ_R 1 eq_refl) as [F2 E2].
  exists (nofZ (-1)), (nlit 1 4), (nofZ 1). split; [exact cr_libm_ok|]. split; [exact F1|].
  assert (FP : s_fin (nlit 1 4 : F64)) by (vm_compute; reflexivity). split; [exact FP|].
  assert (EP : B2R (nlit 1 4 : F64) = 1 / 4).
  { assert (E : B2SF (nlit 1 4 : F64) = SpecFloat.S754_finite false 4503599627370496 (-54)) by (vm_compute; reflexivity).
    rewrite <- SF2R_B2SF, E. unfold SF2R, F2R. cbn [cond_Zopp Fnum Fexp]. change (bpow radix2 (-54)) with (/ IZR (2 ^ 54)). cbn. lra. }
  split; [exact F2|]. split; [exact E1|]. split; [exact EP|]. split; [exact E2|]. split; [rewrite Rabs_left; lra|]. rewrite EP. pose proof PI2_3_2 as P3. unfold PI2 in P3.
  split; [|lra]. replace (1 / 4) with (2 * (1 / 8)) by lra. rewrite cos_2a_sin. pose proof (sin_lt_x (1 / 8) ltac:(lra)). assert (0 <= sin (1 / 8)) by (apply sin_ge_0; lra). nra.
Qed.
