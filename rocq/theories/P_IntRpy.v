(** Angles of integer transforms *)
From Coq Require Import ZArith List Bool Lia Reals Lra Psatz.
From Flocq Require Import Core BinarySingleNaN.
From Verif Require Import Num MathTypes Outcome IntTypes Libm IntRot IntRpy Spec SpecRound SpecLaser SpecLibm SpecIntRpy P_Tac P_Math P_Trig P_Rot P_Round P_OctF P_InsideF P_RayF P_QuatF P_Laser2 P_Laser3 P_Libm.
Local Open Scope R_scope.
Local Notation fin := (is_finite (prec := 53) (emax := 1024)).

Lemma dir_atan2 : forall y x, s_dir y x (Ratan2 y x).
Proof.
  intros y x. destruct (Req_dec x 0) as [X|X]; [destruct (Req_dec y 0) as [Y|Y]|].
  - left. subst. split; auto. split; auto. unfold Ratan2. destruct (Rlt_dec 0 0); [lra|]. reflexivity.
  - right. destruct (polar (V2 x y)) as [r [R1 [E B]]]; [congruence|]. unfold s_ang in *. cbn [v2x v2y] in *. split; auto. exists r. auto.
  - right. destruct (polar (V2 x y)) as [r [R1 [E B]]]; [congruence|]. unfold s_ang in *. cbn [v2x v2y] in *. split; auto. exists r. auto.
Qed.
Lemma dir_unique : forall y x a, s_dir y x a -> a = Ratan2 y x.
Proof.
  intros y x a [[-> [-> ->]]|A].
  - unfold Ratan2. destruct (Rlt_dec 0 0); [lra|]. reflexivity.
  - destruct (angle_s_ang _ _ A) as [E _]. unfold s_ang in E. cbn [v2x v2y] in E. auto.
Qed.
Section L.
  Context (c : R) (L : libm) (HL : s_libm c L) (H0 : s_libm0 c L) (C : 0 <= c <= 1000).
  Lemma iat : forall y x : Z, (Z.abs y < 2 ^ 53)%Z -> (Z.abs x < 2 ^ 53)%Z -> near (4 * c * uro) (lm_atan2 L (nofZ y) (nofZ x)) (Ratan2 (IZR y) (IZR x)).
  Proof.
    intros y x BY BX. destruct (ofZ_R y BY) as [FY EY]. destruct (ofZ_R x BX) as [FX EX]. destruct HL as [_ [_ LA]]. destruct H0 as [ZN [ZF ZZ]]. pose proof uro_pos as U.
    destruct (Z.eq_dec y 0) as [->|NY].
    - destruct (Z.eq_dec x 0) as [->|NX].
      + split; [exact ZF|]. rewrite ZZ. rewrite <- (dir_unique 0 0 0) by (left; auto). rewrite Rminus_0_r, Rabs_R0. apply Rmult_le_pos; lra.
      + destruct (Z_lt_le_dec x 0) as [N|P].
        * apply IZR_lt in N. rewrite <- EX in N. destruct (ZN _ FX N) as [F E]. split; [exact F|]. rewrite EX in N. replace (Ratan2 0 (IZR x)) with PI; [exact E|].
          apply dir_unique. right. split; [pose proof PI_RGT_0; lra|]. exists (- IZR x). split; [lra|]. rewrite cos_PI, sin_PI. f_equal; ring.
        * assert (0 < IZR x) by (apply IZR_lt; lia). destruct (dir_atan2 0 (IZR x)) as [[_ [Q _]]|A]; [lra|].
          destruct (LA (nofZ 0) (nofZ x) (Ratan2 0 (IZR x)) FY FX) as [F E]; [right; rewrite EX; auto|rewrite EX, EY; exact A|]. split; auto.
    - assert (IZR y <> 0) by (apply IZR_neq; auto). destruct (dir_atan2 (IZR y) (IZR x)) as [[Q _]|A]; [lra|].
      destruct (LA (nofZ y) (nofZ x) (Ratan2 (IZR y) (IZR x)) FY FX) as [F E]; [left; rewrite EY; auto|rewrite EX, EY; exact A|]. split; auto.
  Qed.
  Lemma sqrt_zero : (nsqrt (nofZ 0 : F64)) = nofZ 0.
  Proof. reflexivity. Qed.
  (** the pitch *)
  Definition big33 (z : Z) : Prop := (Z.abs z < 8589934592)%Z.
  Lemma cos_pos_half : forall t, - PI < t <= PI -> 0 < cos t -> Rabs t < PI / 2.
  Proof.
    intros t T P. destruct (Rlt_dec (Rabs t) (PI / 2)) as [|N]; auto. exfalso. pose proof PI_RGT_0.
    assert (cos (Rabs t) <= 0) by (apply cos_le_0; [lra|]; unfold Rabs; destruct (Rcase_abs t); lra).
    assert (cos (Rabs t) = cos t) by (unfold Rabs; destruct (Rcase_abs t); [apply cos_neg|reflexivity]). lra.
  Qed.
  Lemma pitch_near : forall nz s2 : Z, big33 nz -> big33 s2 -> (0 <= s2)%Z -> 
    let t := Ratan2 (IZR nz) (sqrt (IZR s2)) in
    near ((4 * c + 8) * uro) (lm_atan2 L (nofZ nz) (nsqrt (nofZ s2))) t /\
    ((s2 = 0 /\ 0 < nz)%Z -> t = PI / 2) /\ (~ (s2 = 0 /\ 0 < nz)%Z -> / 20000000000 <= PI / 2 - t <= PI).
  Proof.
    intros nz s2 BN BS S0 t. unfold big33 in *. pose proof uro_pos as U. pose proof PI_RGT_0 as PP. pose proof PI2_3_2 as P3. unfold PI2 in P3. destruct (ofZ_R nz ltac:(lia)) as [FN EN]. destruct (ofZ_R s2 ltac:(lia)) as [FS ES].
    destruct (Z.eq_dec s2 0) as [->|NS].
    - assert (Q : t = Ratan2 (IZR nz) 0) by (unfold t; rewrite sqrt_0; reflexivity). rewrite sqrt_zero. split; [|split].
      + rewrite Q. eapply near_le; [apply (iat nz 0); lia|]. lra.
      + intros [_ P]. apply IZR_lt in P. rewrite Q. unfold Ratan2. destruct (Rlt_dec 0 0); [lra|]. destruct (Rlt_dec 0 (IZR nz)); [reflexivity|lra].
      + intros N. assert (P : (nz <= 0)%Z) by lia. apply IZR_le in P. rewrite Q. unfold Ratan2. destruct (Rlt_dec 0 0); [lra|]. destruct (Rlt_dec 0 (IZR nz)); [lra|]. destruct (Rlt_dec (IZR nz) 0); lra.
    - assert (S1 : 1 <= IZR s2) by (apply IZR_le; lia). assert (SU : IZR s2 <= 8589934592) by (apply IZR_le; lia). assert (NU : Rabs (IZR nz) <= 8589934592) by (rewrite <- abs_IZR; apply IZR_le; lia).
      assert (R1 : 1 <= sqrt (IZR s2)) by (rewrite <- sqrt_1; apply sqrt_le_1_alt; lra).
      destruct (dir_atan2 (IZR nz) (sqrt (IZR s2))) as [[_ [Q _]]|[TR [rho [RP EQ]]]]; [lra|]. fold t in TR, EQ. injection EQ as EX EY.
      assert (CP : 0 < cos t) by (clear - EX R1 RP; destruct (Rlt_dec 0 (cos t)); auto; nra).
      pose proof (cos_pos_half t TR CP) as TH. pose proof (COS_bound t) as CB.
      assert (RL : sqrt (IZR s2) <= rho) by (rewrite EX; clear - CB RP; nra).
      destruct (sqrt_R (nofZ s2) FS ltac:(rewrite ES; lra)) as [FQ EQ']. rewrite ES in EQ'.
      assert (NQ : near (2 * uro * rho) (nsqrt (nofZ s2)) (rho * cos t)).
      { split; auto. rewrite EQ', <- EX. eapply Rle_trans; [apply rnd_err|]. rewrite Rabs_pos_eq by lra. pose proof eta_u as EU. assert (uro * 1 <= uro * rho) by (apply Rmult_le_compat_l; lra). assert (uro * sqrt (IZR s2) <= uro * rho) by (apply Rmult_le_compat_l; lra). lra. }
      assert (NN : near (2 * uro * rho) (nofZ nz) (rho * sin t)).
      { split; auto. rewrite EN, EY, Rminus_diag_eq, Rabs_R0 by reflexivity. apply Rmult_le_pos; lra. }
      assert (D8 : 4 * (2 * uro * rho) / rho = 8 * uro) by (field; lra).
      split; [|split].
      + eapply near_le; [apply (atan2_near c L _ _ rho t (2 * uro * rho) HL NQ NN RP)|].
        * assert (8 * uro <= 1) by (unfold uro; lra). clear - H RP. nra.
        * rewrite D8. unfold uro. lra.
        * rewrite D8. lra.
      + intros [Q _]. lia.
      + intros _. apply Rabs_def2 in TH as TH'. split; [|lra].
        assert (RU : rho <= 17179869184).
        { assert (SQ : rho * rho = IZR nz * IZR nz + IZR s2). { rewrite <- (sqrt_sqrt (IZR s2)) by lra. rewrite EX, EY. pose proof (sin2_cos2 t) as SC. unfold Rsqr in SC. replace (rho * sin t * (rho * sin t) + rho * cos t * (rho * cos t)) with (rho * rho * (sin t * sin t + cos t * cos t)) by ring. rewrite SC. ring. }
          apply Rabs_le_inv in NU. clear - SQ NU SU RP. assert (IZR nz * IZR nz <= 8589934592 * 8589934592) by nra. nra. }
        assert (CL : / 17179869184 <= cos t). { apply Rmult_le_reg_l with rho; auto. rewrite <- EX. apply Rle_trans with 1; auto. apply Rmult_le_reg_r with 17179869184; lra. }
        assert (cos t <= PI / 2 - t). { rewrite <- sin_shift. left. apply sin_lt_x. lra. } lra.
  Qed.
  Lemma eps_lo : / 2000000000000 <= B2R (nlit 1 1000000000000 : F64).
  Proof.
    assert (E : B2SF (nlit 1 1000000000000 : F64) = SpecFloat.S754_finite false 4951760157141521 (-92)) by (vm_compute; reflexivity).
    rewrite <- SF2R_B2SF, E. unfold SF2R, F2R. cbn [cond_Zopp Fnum Fexp]. change (bpow radix2 (-92)) with (/ IZR (2 ^ 92)). cbn. lra.
  Qed.
  Lemma sing_test : forall nz s2 : Z, big33 nz -> big33 s2 -> (0 <= s2)%Z ->
    nltb (nabs (nsub (lm_atan2 L (nofZ nz) (nsqrt (nofZ s2))) (ndiv f_pi n2))) (nlit 1 1000000000000) = (Z.eqb s2 0 && Z.ltb 0 nz)%bool.
  Proof.
    intros nz s2 BN BS S0. destruct (pitch_near nz s2 BN BS S0) as [NP [T1 T2]]. set (t := Ratan2 _ _) in *. set (p := lm_atan2 _ _ _) in *. pose proof PI_RGT_0 as PP. pose proof PI_4 as P4. pose proof uro_pos as U.
    assert (CU : c * uro <= / 1000000000000) by (unfold uro; lra). pose proof u_small as US.
    assert (BP : Rabs (t - PI / 2) <= 4). { destruct (Z.eq_dec s2 0) as [A|A]; [destruct (Z_lt_le_dec 0 nz) as [B|B]|]; [rewrite T1 by lia|specialize (T2 ltac:(lia))|specialize (T2 ltac:(lia))]; apply Rabs_le; lra. }
    pose proof (near_sub _ _ _ _ _ _ 4 NP half_pi_near BP ltac:(lra) ltac:(lra)) as [FS HS]. destruct (abs_R _ FS) as [FA EA]. destruct eps_R as [FE HE]. pose proof eps_lo as EL. rewrite ltb_R by auto. rewrite EA. set (d := nsub p (ndiv f_pi n2)) in *.
    assert (SM : (4 * c + 8) * uro + 5 * uro + uro * (4 + 1 / 10) <= 49 / 100000000000000) by (unfold uro; lra).
    destruct (Z.eqb_spec s2 0) as [A|A]; [destruct (Z.ltb_spec 0 nz) as [B|B]|]; cbn [andb].
    - rewrite T1 in HS by lia. apply Rltb_true. replace (B2R d - (PI / 2 - PI / 2)) with (B2R d) in HS by ring. lra.
    - specialize (T2 ltac:(lia)). apply Rltb_false. rewrite <- Rabs_Ropp. eapply Rle_trans; [|apply Rle_abs]. apply Rabs_le_inv in HS. lra.
    - specialize (T2 ltac:(lia)). apply Rltb_false. rewrite <- Rabs_Ropp. eapply Rle_trans; [|apply Rle_abs]. apply Rabs_le_inv in HS. lra.
  Qed.
End L.

(** angles that are close give close matrices *)
Lemma mul_lip : forall a b a' b' d e, Rabs (a - a') <= d -> Rabs (b - b') <= e -> Rabs b <= 1 -> Rabs a' <= 1 -> Rabs (a * b - a' * b') <= d + e.
Proof.
  intros a b a' b' d e A B B1 A1. replace (a * b - a' * b') with ((a - a') * b + a' * (b - b')) by ring.
  eapply Rle_trans; [apply Rabs_triang|]. rewrite !Rabs_mult. pose proof (Rabs_pos (a - a')). pose proof (Rabs_pos (b - b')). pose proof (Rabs_pos b). pose proof (Rabs_pos a').
  assert (Rabs (a - a') * Rabs b <= Rabs (a - a') * 1) by (apply Rmult_le_compat_l; auto). assert (Rabs a' * Rabs (b - b') <= 1 * Rabs (b - b')) by (apply Rmult_le_compat_r; auto). lra.
Qed.
Lemma sub_lip : forall x y x' y' d e, Rabs (x - x') <= d -> Rabs (y - y') <= e -> Rabs (x - y - (x' - y')) <= d + e.
Proof. intros x y x' y' d e A B. apply Rabs_le_inv in A, B. apply Rabs_le. lra. Qed.
Lemma add_lip : forall x y x' y' d e, Rabs (x - x') <= d -> Rabs (y - y') <= e -> Rabs (x + y - (x' + y')) <= d + e.
Proof. intros x y x' y' d e A B. apply Rabs_le_inv in A, B. apply Rabs_le. lra. Qed.
Lemma rpy_eq : forall r p y, s_rpy r p y = M3
  (cos y * cos p) (cos y * (sin p * sin r) - sin y * cos r) (cos y * (sin p * cos r) + sin y * sin r)
  (sin y * cos p) (sin y * (sin p * sin r) + cos y * cos r) (sin y * (sin p * cos r) - cos y * sin r)
  (- sin p) (cos p * sin r) (cos p * cos r).
Proof. intros. unfold s_rpy, rot_z, rot_y, rot_x. cbn [vx vy vz]. f_equal; ring. Qed.
Lemma rpy_lip : forall r p y r' p' y' d, Rabs (r - r') <= d -> Rabs (p - p') <= d -> Rabs (y - y') <= d -> s_closem (5 * d) (s_rpy r p y) (s_rpy r' p' y').
Proof.
  intros r p y r' p' y' d HR HP HY. assert (D0 : 0 <= d) by (eapply Rle_trans; [apply Rabs_pos|exact HR]). rewrite !rpy_eq.
  assert (SR := Rle_trans _ _ _ (sin_lip r r') HR). assert (CR := Rle_trans _ _ _ (cos_lip r r') HR). assert (SP := Rle_trans _ _ _ (sin_lip p p') HP). assert (CP := Rle_trans _ _ _ (cos_lip p p') HP).
  assert (SY := Rle_trans _ _ _ (sin_lip y y') HY). assert (CY := Rle_trans _ _ _ (cos_lip y y') HY).
  pose proof sin_1 as S1. pose proof cos_1 as C1.
  assert (SPSR : Rabs (sin p * sin r - sin p' * sin r') <= d + d) by (apply mul_lip; auto). assert (SPCR : Rabs (sin p * cos r - sin p' * cos r') <= d + d) by (apply mul_lip; auto).
  assert (PS : forall a b, Rabs (sin a * sin b) <= 1) by (intros; apply prod_1; auto). assert (PC : forall a b, Rabs (sin a * cos b) <= 1) by (intros; apply prod_1; auto).
  unfold s_closem, s_close. cbn [vx vy vz mxx mxy mxz myx myy myz mzx mzy mzz].
  assert (OP : Rabs (- sin p - - sin p') <= d) by (replace (- sin p - - sin p') with (- (sin p - sin p')) by ring; rewrite Rabs_Ropp; auto).
  repeat split.
  - eapply Rle_trans; [apply mul_lip; eauto|lra].
  - eapply Rle_trans; [apply sub_lip; apply mul_lip; eauto|lra].
  - eapply Rle_trans; [apply add_lip; apply mul_lip; eauto|lra].
  - eapply Rle_trans; [apply mul_lip; eauto|lra].
  - eapply Rle_trans; [apply add_lip; apply mul_lip; eauto|lra].
  - eapply Rle_trans; [apply sub_lip; apply mul_lip; eauto|lra].
  - lra.
  - eapply Rle_trans; [apply mul_lip; eauto|lra].
  - eapply Rle_trans; [apply mul_lip; eauto|lra].
Qed.
