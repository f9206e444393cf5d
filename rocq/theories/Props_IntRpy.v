(** * C116: roll, pitch and yaw of integer transforms *)
From Coq Require Import ZArith List Bool Lia Reals Lra Psatz.
From Flocq Require Import Core BinarySingleNaN.
From Verif Require Import Num MathTypes Outcome IntTypes Libm IntRot IntRpy Spec SpecRound SpecLaser SpecLibm SpecIntRpy P_MeshGeo P_Tac P_Math P_Trig P_Rot P_Round P_KeyF P_QuatF P_Laser2 P_Laser3 P_Libm P_IntRpy Props_Int Props_IntRot Props_Libm.
Import ListNotations.
Local Notation fin := (is_finite (prec := 53) (emax := 1024)).
Local Open Scope R_scope.

(** ** evaluation *)
Definition zn (m : mat3 Z) : Z := (mzy m * mzy m + mzz m * mzz m)%Z.
Definition sing (m : mat3 Z) : bool := (Z.eqb (zn m) 0 && Z.ltb 0 (- mzx m))%bool.
Lemma zn_pos : forall m, (0 <= zn m)%Z.
Proof. intros m. unfold zn. pose proof (Z.square_nonneg (mzy m)). pose proof (Z.square_nonneg (mzz m)). lia. Qed.
Lemma sing_iff : forall m, sing m = true <-> (mzy m = 0 /\ mzz m = 0 /\ mzx m < 0)%Z.
Proof.
  intros m. unfold sing, zn. rewrite andb_true_iff, Z.eqb_eq, Z.ltb_lt. pose proof (Z.square_nonneg (mzy m)). pose proof (Z.square_nonneg (mzz m)). split.
  - intros [A B]. assert (mzy m * mzy m = 0)%Z by lia. assert (mzz m * mzz m = 0)%Z by lia. repeat split; nia.
  - intros [-> [-> B]]. lia.
Qed.
Lemma ick_bad : forall z, ~ s_int z -> ick z = IUndef.
Proof. intros z H. unfold ick, s_int in *. destruct (Z.leb_spec (-2147483648) z), (Z.leb_spec z 2147483647); cbn [andb]; auto; lia. Qed.
Section L.
  Context (c : R) (L : libm) (HL : s_libm c L) (H0 : s_libm0 c L) (C : 0 <= c <= 1000).
  Lemma eval : forall (m : mat3 Z) (v : vec3 Z), s_intm m -> (zn m <= 2147483647)%Z -> mzx m <> (-2147483648)%Z ->
    i_getRPY L (s_it (T3 m v)) =
      let p := lm_atan2 L (nofZ (- mzx m)) (nsqrt (nofZ (zn m))) in
      if sing m then (if Z.eqb (mxy m) (-2147483648) then UB else Ret (nofZ 0, p, lm_atan2 L (nofZ (- mxy m)) (nofZ (myy m))))
      else Ret (lm_atan2 L (nofZ (mzy m)) (nofZ (mzz m)), p, lm_atan2 L (nofZ (myx m)) (nofZ (mxx m))).
  Proof.
    intros m v I N X. unfold s_intm, s_int in I. pose proof (zn_pos m) as P. pose proof (Z.square_nonneg (mzy m)). pose proof (Z.square_nonneg (mzz m)).
    assert (ST := sing_test c L HL H0 C (- mzx m) (zn m) ltac:(unfold big33; lia) ltac:(unfold big33; lia) P). fold (sing m) in ST.
    unfold i_getRPY, getRPYG, s_it, s_im. cbn [tR mxx mxy mxz myx myy myz mzx mzy mzz]. unfold zn in *.
    set (a2 := (mzy m * mzy m)%Z) in *. set (b2 := (mzz m * mzz m)%Z) in *.
    cbn [nopp nmul nadd NumI iun iop]. fold a2 b2. rewrite (ick_in (- mzx m)), (ick_in a2), (ick_in b2) by lia. cbn [iop]. rewrite (ick_in (a2 + b2)) by lia. cbn [idef andb negb idbl].
    rewrite ST. cbv zeta. destruct (sing m); [|reflexivity]. destruct (Z.eqb_spec (mxy m) (-2147483648)) as [E|E].
    - rewrite (ick_bad (- mxy m)) by (rewrite E; unfold s_int; lia). reflexivity.
    - rewrite (ick_in (- mxy m)) by lia. reflexivity.
  Qed.
  (** the real angles, as the same formula on reals *)
  Definition rr (m : mat3 Z) : R := if sing m then 0 else Ratan2 (IZR (mzy m)) (IZR (mzz m)).
  Definition rp (m : mat3 Z) : R := Ratan2 (IZR (- mzx m)) (sqrt (IZR (zn m))).
  Definition ry (m : mat3 Z) : R := if sing m then Ratan2 (IZR (- mxy m)) (IZR (myy m)) else Ratan2 (IZR (myx m)) (IZR (mxx m)).
  Lemma near0 : near 0 (nofZ 0 : F64) 0.
  Proof. destruct (ofZ_R 0 eq_refl) as [F E]. split; [exact F|]. rewrite E, Rminus_0_r, Rabs_R0. lra. Qed.
  Lemma angles : forall (m : mat3 Z) (v : vec3 Z), s_intm m -> (zn m <= 2147483647)%Z -> mzx m <> (-2147483648)%Z -> (sing m = true -> mxy m <> (-2147483648)%Z) ->
    exists r p y, i_getRPY L (s_it (T3 m v)) = Ret (r, p, y) /\ near (4 * c * uro) r (rr m) /\ near ((4 * c + 8) * uro) p (rp m) /\ near (4 * c * uro) y (ry m).
  Proof.
    intros m v I N X S. rewrite (eval m v I N X). cbv zeta. unfold s_intm, s_int in I. pose proof (zn_pos m) as P. pose proof uro_pos as U.
    destruct (pitch_near c L HL H0 C (- mzx m) (zn m) ltac:(unfold big33; lia) ltac:(unfold big33; lia) P) as [NP _].
    unfold rr, ry. destruct (sing m).
    - specialize (S eq_refl). apply Z.eqb_neq in S. rewrite S. apply Z.eqb_neq in S. do 3 eexists. split; [reflexivity|]. split; [|split; [exact NP|]].
      + eapply near_le; [exact near0|]. apply Rmult_le_pos; lra.
      + apply (iat c L HL H0 C); lia.
    - do 3 eexists. split; [reflexivity|]. split; [|split; [exact NP|]]; apply (iat c L HL H0 C); lia.
  Qed.
  Lemma near_dir : forall e x y z, near e x (Ratan2 y z) -> exists a, s_dir y z a /\ s_near e x a.
  Proof. intros e x y z [F H]. exists (Ratan2 y z). split; [apply dir_atan2|]. split; auto. Qed.
End L.

(** ** theorems *)
(** the angles of an int transform: all three are the directions of the entries, computed without rounding in the arguments; the branch for
    the singularity is taken exactly when the last row is (negative, 0, 0) *)
Theorem C116_getRPY : forall (c : R) (L : libm) (m : mat3 Z) (v : vec3 Z), s_libm c L -> s_libm0 c L -> 0 <= c <= 1000 -> s_intm m ->
  (mzy m * mzy m + mzz m * mzz m <= 2147483647)%Z -> mzx m <> (-2147483648)%Z ->
  let singular := (mzy m = 0 /\ mzz m = 0 /\ mzx m < 0)%Z in
  (singular -> mxy m <> (-2147483648)%Z) ->
  exists (r p y : F64) (ar ap ay : R), i_getRPY L (s_it (T3 m v)) = Ret (r, p, y) /\ i_getYaw L (s_it (T3 m v)) = Ret y /\
    s_near (4 * c * uro) r ar /\ s_near ((4 * c + 8) * uro) p ap /\ s_near (4 * c * uro) y ay /\
    s_dir (- IZR (mzx m)) (sqrt (IZR (mzy m) * IZR (mzy m) + IZR (mzz m) * IZR (mzz m))) ap /\
    (singular -> ar = 0 /\ s_dir (- IZR (mxy m)) (IZR (myy m)) ay) /\
    (~ singular -> s_dir (IZR (mzy m)) (IZR (mzz m)) ar /\ s_dir (IZR (myx m)) (IZR (mxx m)) ay).
Proof.
  intros c L m v HL H0 C I N X singular S. fold (zn m) in N.
  destruct (angles c L HL H0 C m v I N X) as [r [p [y [E [NR [NP NY]]]]]]. { intros Q. apply S. apply sing_iff. exact Q. }
  exists r, p, y, (rr m), (rp m), (ry m). split; [exact E|]. split; [unfold i_getYaw; rewrite E; reflexivity|]. split; [exact NR|]. split; [exact NP|]. split; [exact NY|].
  split; [|split].
  - unfold rp, zn. rewrite plus_IZR, !mult_IZR, opp_IZR. apply dir_atan2.
  - intros Q. apply sing_iff in Q. unfold rr, ry. rewrite Q. split; [reflexivity|]. rewrite opp_IZR. apply dir_atan2.
  - intros Q. assert (Q' : sing m = false) by (destruct (sing m) eqn:Z; auto; exfalso; apply Q; apply sing_iff; exact Z). unfold rr, ry. rewrite Q'. split; apply dir_atan2.
Qed.
(** outside these ranges the behaviour is undefined, whatever the library *)
Theorem C116_overflow : forall (L : libm) (m : mat3 Z) (v : vec3 Z), s_intm m ->
  (mzy m * mzy m + mzz m * mzz m > 2147483647)%Z \/ mzx m = (-2147483648)%Z -> i_getRPY L (s_it (T3 m v)) = UB /\ i_getYaw L (s_it (T3 m v)) = UB.
Proof.
  intros L m v I H. assert (E : i_getRPY L (s_it (T3 m v)) = UB); [|split; [exact E|unfold i_getYaw; rewrite E; reflexivity]].
  unfold i_getRPY, getRPYG, s_it, s_im. cbn [tR mxx mxy mxz myx myy myz mzx mzy mzz]. cbn [nopp nmul nadd NumI iun iop].
  assert (K : (idef (ick (- mzx m)) && idef (iop (fun x y => ick (x + y)) (ick (mzy m * mzy m)) (ick (mzz m * mzz m))))%bool = false).
  { destruct H as [H|H].
    - apply andb_false_intro2. destruct (ick (mzy m * mzy m)) as [a|] eqn:A; [|reflexivity]. destruct (ick (mzz m * mzz m)) as [b|] eqn:B; [|reflexivity].
      apply ick_out in A as [-> _]. apply ick_out in B as [-> _]. cbn [iop]. rewrite ick_bad by (unfold s_int; lia). reflexivity.
    - apply andb_false_intro1. rewrite H. reflexivity. }
  rewrite K. reflexivity.
Qed.
Theorem C116_overflow_singular : forall (c : R) (L : libm) (m : mat3 Z) (v : vec3 Z), s_libm c L -> s_libm0 c L -> 0 <= c <= 1000 -> s_intm m ->
  mzy m = 0%Z -> mzz m = 0%Z -> (mzx m < 0)%Z -> mxy m = (-2147483648)%Z -> i_getRPY L (s_it (T3 m v)) = UB /\ i_getYaw L (s_it (T3 m v)) = UB.
Proof.
  intros c L m v HL H0 C I Y Z X XY. destruct (Z.eq_dec (mzx m) (-2147483648)) as [W|W]; [apply C116_overflow; auto|].
  assert (E : i_getRPY L (s_it (T3 m v)) = UB).
  { rewrite (eval c L HL H0 C m v I) by (unfold zn; rewrite ?Y, ?Z; lia). cbv zeta. replace (sing m) with true by (symmetry; apply sing_iff; auto). rewrite XY. reflexivity. }
  split; [exact E|]. unfold i_getYaw. rewrite E. reflexivity.
Qed.
(** rotations *)
Lemma zrot_facts : forall m, s_zrot m -> s_zdet m = 1%Z -> rotation (s_zm m).
Proof.
  intros m H D. assert (HR : forall i j, (i < 3)%nat -> (j < 3)%nat -> IZR (s_zdot (s_zcol m i) (s_zcol m j)) = if Nat.eqb i j then 1 else 0).
  { intros i j I J. rewrite H by auto. destruct (Nat.eqb i j); reflexivity. }
  apply (f_equal IZR) in D. unfold s_zdet, s_zdot, s_zcross, s_zrow in D. unfold s_zdot, s_zcol in HR. cbn [vx vy vz] in *.
  rewrite ?plus_IZR, ?minus_IZR, ?mult_IZR in D. assert (HR' := HR).
  pose proof (HR 0 0 ltac:(lia) ltac:(lia))%nat as E1. pose proof (HR 1 1 ltac:(lia) ltac:(lia))%nat as E2. pose proof (HR 2 2 ltac:(lia) ltac:(lia))%nat as E3.
  pose proof (HR 0 1 ltac:(lia) ltac:(lia))%nat as E4. pose proof (HR 0 2 ltac:(lia) ltac:(lia))%nat as E5. pose proof (HR 1 2 ltac:(lia) ltac:(lia))%nat as E6.
  cbn [vx vy vz Nat.eqb] in *. rewrite ?plus_IZR, ?mult_IZR in E1, E2, E3, E4, E5, E6. rewrite ?minus_IZR, ?mult_IZR in D.
  apply rotation_of_facts; unfold s_zm; cbn [mxx mxy mxz myx myy myz mzx mzy mzz]; try lra.
Qed.
Lemma zrot_row : forall m, s_zrot m -> s_zdet m = 1%Z -> (mzx m * mzx m + zn m = 1)%Z.
Proof.
  intros m H D. pose proof (zrot_facts m H D) as R. rotfacts R. unfold s_zm in *. cbn [mxx mxy mxz myx myy myz mzx mzy mzz] in *.
  apply eq_IZR. unfold zn. rewrite !plus_IZR, !mult_IZR. lra.
Qed.
Lemma zrot_int : forall m, s_zrot m -> s_intm m /\ mxy m <> (-2147483648)%Z.
Proof. intros m H. pose proof (zrot_entries m H) as M. unfold s_mle, s_vle, s_zrow in M. cbn [vx vy vz] in M. unfold s_intm, s_int. lia. Qed.
Lemma s_rpy_m : forall r p y, s_rpy r p y = @m3rpy R NumR TrigR r p y.
Proof. intros. unfold s_rpy, m3rpy, rot_x, rot_y, rot_z. cbn. f_equal; ring. Qed.
Lemma real_rpy : forall (c : R) (L : libm) m t, s_libm c L -> s_libm0 c L -> 0 <= c <= 1000 -> (zn m < 8589934592)%Z -> (Z.abs (mzx m) < 8589934592)%Z ->
  @tgetRPY R NumR TrigR (T3 (s_zm m) t) = (rr m, rp m, ry m) /\ (sing m = false -> rp m <= PI / 2 - 1 / 1000000000000).
Proof.
  intros c L m t HL H0 C N X. pose proof (zn_pos m) as P. destruct (pitch_near c L HL H0 C (- mzx m) (zn m) ltac:(unfold big33; lia) ltac:(unfold big33; lia) P) as [_ [T1 T2]].
  fold (rp m) in T1, T2.
  assert (T1' : sing m = true -> rp m = PI / 2). { intros Q. apply T1. unfold sing in Q. rewrite andb_true_iff, Z.eqb_eq, Z.ltb_lt in Q. exact Q. }
  assert (T2' : sing m = false -> / 20000000000 <= PI / 2 - rp m <= PI). { intros Q. apply T2. unfold sing in Q. intros [Q1 Q2]. apply Z.eqb_eq in Q1. apply Z.ltb_lt in Q2. rewrite Q1, Q2 in Q. discriminate. }
  split.
  - unfold tgetRPY, s_zm. cbn [tR mxx mxy mxz myx myy myz mzx mzy mzz].
    assert (EP : @natan2 R TrigR (- IZR (mzx m))%num (nsqrt (IZR (mzy m) * IZR (mzy m) + IZR (mzz m) * IZR (mzz m))%num) = rp m).
    { cbn. unfold rp, zn. rewrite plus_IZR, !mult_IZR, opp_IZR. reflexivity. }
    rewrite EP. assert (EB : nltb (nabs (rp m - npi / n2)%num) (nlit 1 1000000000000) = sing m).
    { unfold nlit. cbn. destruct (sing m) eqn:Q; unfold Rltb; destruct (Rlt_dec _ _) as [A|A]; auto; exfalso.
      - rewrite (T1' eq_refl) in A. apply A. rewrite Rminus_diag_eq, Rabs_R0 by reflexivity. lra.
      - specialize (T2' eq_refl). rewrite Rabs_left in A by lra. lra. }
    rewrite EB. unfold rr, ry. destruct (sing m); [rewrite opp_IZR|]; reflexivity.
  - intros Q. specialize (T2' Q). lra.
Qed.
(** every integer rotation except those with the x axis turned to z is given back by its angles, up to the accuracy of the library *)
Theorem C116_rotations : forall (c : R) (L : libm) (m : mat3 Z) (v : vec3 Z), s_libm c L -> s_libm0 c L -> 0 <= c <= 1000 -> s_zrot m -> s_zdet m = 1%Z -> mzx m <> 1%Z ->
  exists r p y : F64, i_getRPY L (s_it (T3 m v)) = Ret (r, p, y) /\ s_fin r /\ s_fin p /\ s_fin y /\ s_closem (5 * ((4 * c + 8) * uro)) (s_rpy (B2R r) (B2R p) (B2R y)) (s_zm m).
Proof.
  intros c L m v HL H0 C H D NX. pose proof (zrot_row m H D) as RW. pose proof (zn_pos m) as P. pose proof (Z.square_nonneg (mzx m)). destruct (zrot_int m H) as [I IX]. pose proof uro_pos as U.
  assert (X1 : (mzx m = -1 \/ mzx m = 0)%Z) by nia.
  destruct (angles c L HL H0 C m v I ltac:(lia) ltac:(lia) ltac:(auto)) as [r [p [y [E [[FR NR] [[FP NP] [FY NY]]]]]]].
  exists r, p, y. split; [exact E|]. split; [exact FR|]. split; [exact FP|]. split; [exact FY|].
  destruct (real_rpy c L m (V3 0 0 0) HL H0 C ltac:(lia) ltac:(lia)) as [RE RB].
  assert (M : s_rpy (rr m) (rp m) (ry m) = s_zm m).
  { rewrite s_rpy_m. apply (getRPY_rebuild (s_zm m) (V3 0 0 0)); auto.
    - apply zrot_facts; auto.
    - unfold s_zm. cbn [mzx]. apply (IZR_neq (mzx m) 1). exact NX.
    - unfold s_zm. cbn [mzx]. destruct X1 as [X1|X1]; [left; rewrite X1; reflexivity|right]. apply RB. unfold sing. rewrite X1. apply andb_false_intro2. reflexivity. }
  rewrite <- M. apply rpy_lip; [|exact NP|]; (eapply Rle_trans; [eassumption|]; apply Rmult_le_compat_r; lra).
Qed.
(** with the x axis turned to z the singularity test does not apply (it looks at one sign of the pitch only), roll and yaw are zero, and the
    angles give the rotation back only for one of the four rotations *)
Theorem C116_gimbal : forall (c : R) (L : libm) (m : mat3 Z) (v : vec3 Z), s_libm c L -> s_libm0 c L -> 0 <= c <= 1000 -> s_zrot m -> s_zdet m = 1%Z -> mzx m = 1%Z ->
  exists r p y : F64, i_getRPY L (s_it (T3 m v)) = Ret (r, p, y) /\ B2R r = 0 /\ s_near ((4 * c + 8) * uro) p (- PI / 2) /\ B2R y = 0 /\
    (s_closem (1 / 2) (s_rpy (B2R r) (B2R p) (B2R y)) (s_zm m) <-> myy m = 1%Z).
Proof.
  intros c L m v HL H0 C H D X1. pose proof (zrot_row m H D) as RW. pose proof (zn_pos m) as P. destruct (zrot_int m H) as [I IX]. pose proof uro_pos as U.
  assert (Z0 : zn m = 0%Z) by (rewrite X1 in RW; lia). assert (ZZ : (mzy m = 0 /\ mzz m = 0)%Z) by (unfold zn in Z0; nia). destruct ZZ as [Zy Zz].
  assert (SF : sing m = false) by (unfold sing; rewrite X1; apply andb_false_intro2; reflexivity).
  pose proof (zrot_facts m H D) as RT. rotfacts RT. unfold s_zm in *. cbn [mxx mxy mxz myx myy myz mzx mzy mzz] in *. rewrite X1, Zy, Zz in *.
  assert (XX : mxx m = 0%Z) by (apply eq_IZR; nra). assert (YX : myx m = 0%Z) by (apply eq_IZR; nra).
  assert (E := eval c L HL H0 C m v I ltac:(lia) ltac:(lia)). cbv zeta in E. rewrite SF in E.
  destruct (angles c L HL H0 C m v I ltac:(lia) ltac:(lia) ltac:(congruence)) as [r' [p' [y' [E' [_ [[FP NP] _]]]]]]. rewrite E in E'. injection E' as E1 E2 E3. subst p'. clear r' y' E1 E3.
  do 3 eexists. split; [exact E|]. rewrite Zy, Zz, YX, XX. destruct H0 as [_ [_ B0]].
  assert (RP : rp m = - PI / 2). { unfold rp. rewrite X1, Z0, sqrt_0. unfold Ratan2. cbn. destruct (Rlt_dec 0 0); [lra|]. destruct (Rlt_dec 0 (-1)); [lra|]. destruct (Rlt_dec (-1) 0); [lra|lra]. }
  rewrite RP in NP. split; [exact B0|]. split; [split; [exact FP|exact NP]|]. split; [exact B0|]. rewrite !B0. set (p := lm_atan2 L _ (nsqrt _)) in *.
  assert (SM : (4 * c + 8) * uro <= / 1000000) by (unfold uro; lra).
  pose proof (rpy_lip 0 (B2R p) 0 0 (- PI / 2) 0 ((4 * c + 8) * uro) ltac:(rewrite Rminus_0_r, Rabs_R0; apply Rmult_le_pos; lra) NP ltac:(rewrite Rminus_0_r, Rabs_R0; apply Rmult_le_pos; lra)) as CL.
  rewrite rpy_eq in CL. rewrite (rpy_eq 0 (- PI / 2) 0) in CL. rewrite rpy_eq. replace (- PI / 2) with (- (PI / 2)) in CL by lra. rewrite sin_neg, cos_neg, sin_0, cos_0, sin_PI2, cos_PI2 in CL. rewrite sin_0, cos_0.
  rewrite XX, YX in *. set (sp := sin (B2R p)) in *. set (cp := cos (B2R p)) in *.
  unfold s_closem, s_close in *. cbn [vx vy vz mxx mxy mxz myx myy myz mzx mzy mzz] in *. destruct CL as [[C1 [C2 C3]] [[C4 [C5 C6]] [C7 [C8 C9]]]].
  assert (EN := zrot_entries m H). unfold s_mle, s_vle, s_zrow in EN. cbn [vx vy vz] in EN.
  split.
  - intros [_ [[_ [K _]] _]]. assert (Y1 : (myy m = -1 \/ myy m = 0 \/ myy m = 1)%Z) by lia. destruct Y1 as [Y|[Y|Y]]; auto; exfalso; rewrite Y in K; apply Rabs_le_inv in K; lra.
  - intros Y. rewrite Y in *. assert (MXY : IZR (mxy m) = 0) by nra. assert (MYZ : IZR (myz m) = 0) by nra. assert (MXZ : IZR (mxz m) = -1) by lra.
    rewrite MXY, MYZ, MXZ. apply Rabs_le_inv in C1, C2, C3, C4, C5, C6, C7, C8, C9. repeat split; apply Rabs_le; lra.
Qed.
(** the angle of a planar int transform is truncated: always defined, one of the seven integers between -3 and 3 *)
Lemma trunc_near : forall (x : F64) (a e : R), near e x a -> -4 < a < 4 -> 0 <= e < / 2 -> (forall j : Z, j <> 0%Z -> e < Rabs (a - IZR j)) -> toint x = Some (Ztrunc a).
Proof.
  intros x a e [F H] A E J. apply Rabs_le_inv in H.
  assert (T : Ztrunc (B2R x) = Ztrunc a).
  { set (k := Ztrunc a). destruct (Rle_lt_dec 0 a) as [P|P].
    - assert (K : IZR k <= a < IZR k + 1) by (unfold k; rewrite Ztrunc_floor by lra; split; [apply Zfloor_lb|rewrite <- plus_IZR; rewrite plus_IZR; apply Zfloor_ub]).
      assert (K0 : (0 <= k)%Z) by (unfold k; rewrite Ztrunc_floor by lra; apply Zfloor_lub; exact P).
      pose proof (J (k + 1)%Z ltac:(lia)) as J1. rewrite plus_IZR, Rabs_left1 in J1 by lra.
      destruct (Z.eq_dec k 0) as [K1|K1].
      + rewrite K1 in *. destruct (Rle_lt_dec 0 (B2R x)) as [Q|Q]; [rewrite Ztrunc_floor by lra; apply Zfloor_imp; cbn; lra|rewrite Ztrunc_ceil by lra; apply Zceil_imp; cbn; lra].
      + pose proof (J k K1) as J2. rewrite Rabs_pos_eq in J2 by lra. apply IZR_le in K0. rewrite Ztrunc_floor by lra. apply Zfloor_imp. rewrite plus_IZR. lra.
    - assert (K : IZR k - 1 < a <= IZR k). { unfold k; rewrite Ztrunc_ceil by lra. split; [|apply Zceil_ub]. pose proof (Zceil_lb a). lra. }
      assert (K0 : (k <= 0)%Z) by (unfold k; rewrite Ztrunc_ceil by lra; apply Zceil_glb; cbn; lra).
      pose proof (J (k - 1)%Z ltac:(lia)) as J1. rewrite minus_IZR, Rabs_pos_eq in J1 by lra.
      destruct (Z.eq_dec k 0) as [K1|K1].
      + rewrite K1 in *. destruct (Rle_lt_dec 0 (B2R x)) as [Q|Q]; [rewrite Ztrunc_floor by lra; apply Zfloor_imp; cbn; lra|rewrite Ztrunc_ceil by lra; apply Zceil_imp; cbn; lra].
      + pose proof (J k K1) as J2. rewrite Rabs_left1 in J2 by lra. apply IZR_le in K0. rewrite Ztrunc_ceil by lra. apply Zceil_imp. rewrite minus_IZR. lra. }
  apply toint_F. split; [exact F|]. split; [exact T|]. unfold int_range.
  assert (B := Ztrunc_le (-4) a ltac:(lra)). assert (B' := Ztrunc_le a 4 ltac:(lra)). rewrite Ztrunc_IZR in B, B'. lia.
Qed.
Definition s_it2 (xx xy yx yy x y : Z) : trans2 cint := T2 (M2 (IVal xx) (IVal xy) (IVal yx) (IVal yy)) (V2 (IVal x) (IVal y)).
Theorem C116_planar : forall (c : R) (L : libm) (xx xy yx yy x y : Z), s_libm c L -> s_libm0 c L -> 0 <= c <= 1000 -> s_int xx -> s_int yx ->
  exists k : Z, i_rotation L (s_it2 xx xy yx yy x y) = IVal k /\ (-3 <= k <= 3)%Z /\
    forall a, s_dir (IZR yx) (IZR xx) a -> Rabs (IZR k - a) < 1 + 4 * c * uro /\
      ((forall j : Z, j <> 0%Z -> 4 * c * uro < Rabs (a - IZR j)) -> k = Ztrunc a).
Proof.
  intros c L xx xy yx yy x y HL H0 C IX IY. unfold s_int in *. pose proof uro_pos as U.
  pose proof (iat c L HL H0 C yx xx ltac:(lia) ltac:(lia)) as N. unfold i_rotation, t2rotation, s_it2. cbn [t2R m2yx m2xx natan2 TrigI iop]. set (d := lm_atan2 L _ _) in *.
  set (a := Ratan2 (IZR yx) (IZR xx)) in *. pose proof (atan2_range (IZR yx) (IZR xx)) as AR. fold a in AR. pose proof PI_4 as P4.
  assert (SM : 4 * c * uro <= / 1000000) by (unfold uro; lra). assert (S0 : 0 <= 4 * c * uro) by (apply Rmult_le_pos; lra).
  assert (PU : PI < 3.2) by (pose proof pi_lo; pose proof pi_up; lra).
  destruct N as [F N]. pose proof N as N'. apply Rabs_le_inv in N.
  assert (B := Ztrunc_le (-3.5) (B2R d) ltac:(lra)). assert (B' := Ztrunc_le (B2R d) 3.5 ltac:(lra)).
  assert (T1 : Ztrunc (-3.5) = (-3)%Z) by (rewrite Ztrunc_ceil by lra; apply Zceil_imp; cbn; lra). assert (T2 : Ztrunc 3.5 = 3%Z) by (rewrite Ztrunc_floor by lra; apply Zfloor_imp; cbn; lra). rewrite T1 in B. rewrite T2 in B'.
  assert (TI : toint d = Some (Ztrunc (B2R d))) by (apply toint_F; split; [exact F|]; split; [reflexivity|]; unfold int_range; lia).
  exists (Ztrunc (B2R d)). split; [rewrite TI; reflexivity|]. split; [lia|]. intros a' A. apply dir_unique in A. fold a in A. subst a'. split.
  - assert (Rabs (IZR (Ztrunc (B2R d)) - B2R d) < 1).
    { destruct (Rle_lt_dec 0 (B2R d)) as [Q|Q]; [rewrite Ztrunc_floor by lra; pose proof (Zfloor_lb (B2R d)); pose proof (Zfloor_ub (B2R d))|rewrite Ztrunc_ceil by lra; pose proof (Zceil_ub (B2R d)); pose proof (Zceil_lb (B2R d))]; apply Rabs_def1; lra. }
    apply Rabs_def2 in H. apply Rabs_def1; lra.
  - intros J. assert (K := trunc_near d a (4 * c * uro) (conj F N') ltac:(lra) ltac:(lra) J). rewrite TI in K. injection K as K. exact K.
Qed.
(** the four planar rotations with integer entries: the quarter turns are reported as 1 and -1 radians and the half turn as 3 *)
Theorem C116_quarters : forall (c : R) (L : libm) (x y : Z), s_libm c L -> s_libm0 c L -> 0 <= c <= 1000 ->
  i_rotation L (s_it2 1 0 0 1 x y) = IVal 0 /\ i_rotation L (s_it2 0 (-1) 1 0 x y) = IVal 1 /\
  i_rotation L (s_it2 (-1) 0 0 (-1) x y) = IVal 3 /\ i_rotation L (s_it2 0 1 (-1) 0 x y) = IVal (-1).
Proof.
  intros c L x y HL H0 C. pose proof PI2_3_2 as P3. unfold PI2 in P3. pose proof PI_4 as P4.
  assert (PU : PI < 3.2) by (pose proof pi_lo; pose proof pi_up; lra).
  assert (PL : 3.1 < PI) by (pose proof pi_lo; pose proof pi_up; lra).
  assert (SM : 4 * c * uro <= / 1000000) by (unfold uro; lra). assert (S0 : 0 <= 4 * c * uro) by (apply Rmult_le_pos; [lra|unfold uro; lra]).
  assert (K : forall xx xy yx yy a k, s_int xx -> s_int yx -> s_dir (IZR yx) (IZR xx) a -> (a = 0 \/ 1.5 < a < 1.7 \/ 3.1 < a < 3.2 \/ -1.7 < a < -1.5) -> Ztrunc a = k -> i_rotation L (s_it2 xx xy yx yy x y) = IVal k).
  { intros xx xy yx yy a k IX IY D A T. destruct (C116_planar c L xx xy yx yy x y HL H0 C IX IY) as [k' [E [_ H]]]. destruct (H a D) as [_ J]. rewrite E. f_equal. rewrite J; [exact T|].
    intros j NJ. apply Rle_lt_trans with (/ 1000000); auto. clear - A NJ.
    assert (j <= -4 \/ j = -3 \/ j = -2 \/ j = -1 \/ j = 1 \/ j = 2 \/ j = 3 \/ 4 <= j)%Z as [W|[ -> |[ -> |[ -> |[ -> |[ -> |[ -> |W]]]]]]] by lia;
      try apply IZR_le in W; destruct A as [A|[A|[A|A]]]; unfold Rabs; destruct (Rcase_abs _); lra. }
  assert (DD : forall yy xx a, - PI < a <= PI -> xx = cos a -> yy = sin a -> s_dir yy xx a).
  { intros yy xx a R1 -> ->. right. split; [exact R1|]. exists 1. split; [lra|]. f_equal; ring. }
  assert (I : s_int 0 /\ s_int 1 /\ s_int (-1)) by (unfold s_int; lia). destruct I as [I0 [I1 I2]].
  split; [|split; [|split]].
  - apply (K _ _ _ _ 0); auto; [apply DD; [lra|rewrite cos_0; reflexivity|rewrite sin_0; reflexivity]|apply (Ztrunc_IZR 0)].
  - apply (K _ _ _ _ (PI / 2)); auto; [apply DD; [lra|rewrite cos_PI2; reflexivity|rewrite sin_PI2; reflexivity]|right; left; lra|]. rewrite Ztrunc_floor by lra. apply Zfloor_imp. cbn. lra.
  - apply (K _ _ _ _ PI); auto; [apply DD; [lra|rewrite cos_PI; reflexivity|rewrite sin_PI; reflexivity]|]. rewrite Ztrunc_floor by lra. apply Zfloor_imp. cbn. lra.
  - apply (K _ _ _ _ (- (PI / 2))); auto; [apply DD; [lra|rewrite cos_neg, cos_PI2; reflexivity|rewrite sin_neg, sin_PI2; reflexivity]|right; right; right; lra|]. rewrite Ztrunc_ceil by lra. apply Zceil_imp. cbn. lra.
Qed.
(** ** unsigned: arithmetic wraps, so nothing is undefined and the pitch is never negative *)
Definition s_uv (a : vec3 Z) : vec3 cuint := V3 (UVal (vx a)) (UVal (vy a)) (UVal (vz a)).
Definition s_um (m : mat3 Z) : mat3 cuint := M3 (UVal (mxx m)) (UVal (mxy m)) (UVal (mxz m)) (UVal (myx m)) (UVal (myy m)) (UVal (myz m)) (UVal (mzx m)) (UVal (mzy m)) (UVal (mzz m)).
Definition s_nat32 (z : Z) : Prop := (0 <= z < 4294967296)%Z.
Definition s_nat32m (m : mat3 Z) : Prop :=
  (s_nat32 (mxx m) /\ s_nat32 (mxy m) /\ s_nat32 (mxz m)) /\ (s_nat32 (myx m) /\ s_nat32 (myy m) /\ s_nat32 (myz m)) /\ (s_nat32 (mzx m) /\ s_nat32 (mzy m) /\ s_nat32 (mzz m)).
Theorem C116_unsigned : forall (c : R) (L : libm) (m : mat3 Z) (v : vec3 Z), s_libm c L -> s_libm0 c L -> 0 <= c <= 1000 -> s_nat32m m ->
  let n := ((mzy m * mzy m + mzz m * mzz m) mod 4294967296)%Z in
  let neg z := (if Z.eqb z 0 then 0 else 4294967296 - z)%Z in
  let singular := (n = 0 /\ mzx m <> 0)%Z in
  exists (r p y : F64) (ar ap ay : R), u_getRPY L (T3 (s_um m) (s_uv v)) = Ret (r, p, y) /\
    s_near (4 * c * uro) r ar /\ s_near ((4 * c + 8) * uro) p ap /\ s_near (4 * c * uro) y ay /\
    s_dir (IZR (neg (mzx m))) (sqrt (IZR n)) ap /\ 0 <= ap <= PI / 2 /\
    (singular -> ar = 0 /\ s_dir (IZR (neg (mxy m))) (IZR (myy m)) ay) /\
    (~ singular -> s_dir (IZR (mzy m)) (IZR (mzz m)) ar /\ s_dir (IZR (myx m)) (IZR (mxx m)) ay).
Proof.
  intros c L m v HL H0 C I n neg singular. unfold s_nat32m, s_nat32 in I. pose proof uro_pos as U.
  assert (NB : (0 <= n < 4294967296)%Z) by (apply Z.mod_pos_bound; lia).
  assert (NG : forall z, (0 <= z < 4294967296)%Z -> ((- z) mod 4294967296 = neg z)%Z /\ (0 <= neg z < 4294967296)%Z /\ (0 < neg z <-> z <> 0)%Z).
  { intros z Z1. unfold neg. destruct (Z.eqb_spec z 0) as [->|NZ]; [split; [reflexivity|lia]|]. split; [|lia]. symmetry. apply (Z.mod_unique _ _ (-1)); lia. }
  destruct (NG (mzx m) ltac:(lia)) as [N1 [N2 N3]]. destruct (NG (mxy m) ltac:(lia)) as [M1 [M2 _]].
  assert (EN : (((mzy m * mzy m) mod 4294967296 + (mzz m * mzz m) mod 4294967296) mod 4294967296 = n)%Z) by (unfold n; rewrite <- Z.add_mod by lia; reflexivity).
  pose proof (sing_test c L HL H0 C (neg (mzx m)) n ltac:(unfold big33; lia) ltac:(unfold big33; lia) ltac:(lia)) as ST.
  destruct (pitch_near c L HL H0 C (neg (mzx m)) n ltac:(unfold big33; lia) ltac:(unfold big33; lia) ltac:(lia)) as [[FP NP] [T1 T2]].
  set (sg := (Z.eqb n 0 && Z.ltb 0 (neg (mzx m)))%bool) in *.
  assert (SG : sg = true <-> singular) by (unfold sg, singular; rewrite andb_true_iff, Z.eqb_eq, Z.ltb_lt; tauto).
  unfold u_getRPY, getRPYG, s_um. cbn [tR mxx mxy mxz myx myy myz mzx mzy mzz]. cbn [nopp nmul nadd NumU uun uop]. unfold uck. cbn [uop]. rewrite EN, N1, M1. cbn [udef udbl andb negb]. rewrite ST.
  assert (AP : s_dir (IZR (neg (mzx m))) (sqrt (IZR n)) (Ratan2 (IZR (neg (mzx m))) (sqrt (IZR n)))) by apply dir_atan2.
  set (ap := Ratan2 (IZR (neg (mzx m))) (sqrt (IZR n))) in *.
  assert (A2 : 0 <= ap <= PI / 2).
  { pose proof PI_RGT_0. split; [|destruct (Z.eq_dec n 0) as [Q|Q]; [destruct (Z.eq_dec (neg (mzx m)) 0) as [W|W]|]; [specialize (T2 ltac:(lia))|rewrite T1 by lia|specialize (T2 ltac:(lia))]; try lra; (assert (0 < / 20000000000) by (apply Rinv_0_lt_compat; lra); lra)].
    destruct AP as [[_ [_ ->]]|[AR [rho [RP EQ]]]]; [lra|]. injection EQ as E1 E2. destruct (Rle_lt_dec 0 ap) as [|Q]; auto. exfalso.
    assert (sin ap < 0). { pose proof (sin_gt_0 (- ap) ltac:(lra) ltac:(lra)) as S. rewrite sin_neg in S. lra. }
    assert (0 <= IZR (neg (mzx m))) by (apply IZR_le; lia). nra. }
  destruct sg eqn:Q.
  - do 3 eexists. exists 0, ap, (Ratan2 (IZR (neg (mxy m))) (IZR (myy m))). split; [reflexivity|]. split; [|split; [split; [exact FP|exact NP]|split; [|split; [exact AP|split; [exact A2|]]]]].
    + destruct (near_le _ _ _ _ near0 (Rmult_le_pos (4 * c) uro ltac:(lra) ltac:(lra))) as [F H]. split; [exact F|exact H].
    + destruct (iat c L HL H0 C (neg (mxy m)) (myy m) ltac:(lia) ltac:(lia)) as [F H]. split; [exact F|exact H].
    + split; [intros _; split; [reflexivity|apply dir_atan2]|]. intros N. exfalso. apply N. apply SG. reflexivity.
  - do 3 eexists. exists (Ratan2 (IZR (mzy m)) (IZR (mzz m))), ap, (Ratan2 (IZR (myx m)) (IZR (mxx m))). split; [reflexivity|]. split; [|split; [split; [exact FP|exact NP]|split; [|split; [exact AP|split; [exact A2|]]]]].
    + destruct (iat c L HL H0 C (mzy m) (mzz m) ltac:(lia) ltac:(lia)) as [F H]. split; [exact F|exact H].
    + destruct (iat c L HL H0 C (myx m) (mxx m) ltac:(lia) ltac:(lia)) as [F H]. split; [exact F|exact H].
    + split; [intros N; apply SG in N; discriminate|]. intros _. split; apply dir_atan2.
Qed.
Print Assumptions C116_getRPY.
Print Assumptions C116_overflow.
Print Assumptions C116_overflow_singular.
Print Assumptions C116_rotations.
Print Assumptions C116_gimbal.
Print Assumptions C116_planar.
Print Assumptions C116_quarters.
Print Assumptions C116_unsigned.

(** ** non-vacuity *)
Lemma cr_libm_ok0 : s_libm0 2 cr_libm.
Proof.
  destruct (ofZ_R 0 eq_refl) as [F0 E0]. split; [|split].
  - intros x F N. cbn [lm_atan2 cr_libm]. rewrite E0. replace (Ratan2 0 (B2R x)) with PI.
    + pose proof PI_4. pose proof PI_RGT_0. destruct (fl_near PI 4) as [F' H']; [apply Rabs_le; lra|lra|]. split; [exact F'|]. lra.
    + apply dir_unique. right. split; [pose proof PI_RGT_0; lra|]. exists (- B2R x). split; [lra|]. rewrite cos_PI, sin_PI. f_equal; ring.
  - cbn [lm_atan2 cr_libm]. destruct (fl_near (Ratan2 (B2R (nofZ 0)) (B2R (nofZ 0))) 4) as [F' _]; [|lra|exact F'].
    pose proof PI_4. pose proof (atan2_range (B2R (nofZ 0)) (B2R (nofZ 0))). apply Rabs_le. lra.
  - cbn [lm_atan2 cr_libm]. rewrite !E0. rewrite <- (dir_unique 0 0 0) by (left; auto). unfold fl. rewrite Rmult_0_l. replace (ZnearestE 0) with 0%Z.
    + reflexivity.
    + symmetry. exact (Zrnd_IZR ZnearestE 0).
Qed.
(** a quarter turn about y (singular), a quarter turn about z, and one with the x axis turned to z, with a library meeting both contracts *)
Example C116_nonvacuous : s_libm 2 cr_libm /\ s_libm0 2 cr_libm /\
  (let m := (M3 0 0 1 0 1 0 (-1) 0 0)%Z in s_zrot m /\ s_zdet m = 1%Z /\ mzx m <> 1%Z /\ s_intm m) /\
  (let m := (M3 0 (-1) 0 1 0 0 0 0 1)%Z in s_zrot m /\ s_zdet m = 1%Z /\ mzx m <> 1%Z /\ s_intm m) /\
  (let m := (M3 0 (-1) 0 0 0 (-1) 1 0 0)%Z in s_zrot m /\ s_zdet m = 1%Z /\ mzx m = 1%Z /\ myy m <> 1%Z) /\
  s_nat32m (M3 0 0 1 0 1 0 1 65536 0)%Z.
Proof.
  split; [exact cr_libm_ok|]. split; [exact cr_libm_ok0|].
  assert (K : forall m, (s_zdot (s_zcol m 0) (s_zcol m 0) = 1 /\ s_zdot (s_zcol m 1) (s_zcol m 1) = 1 /\ s_zdot (s_zcol m 2) (s_zcol m 2) = 1 /\ s_zdot (s_zcol m 0) (s_zcol m 1) = 0 /\ s_zdot (s_zcol m 0) (s_zcol m 2) = 0 /\ s_zdot (s_zcol m 1) (s_zcol m 2) = 0)%Z -> s_zrot m).
  { intros m [A [B [D [E [F G]]]]] i j I J. destruct i as [|[|[|i]]], j as [|[|[|j]]]; try lia; cbn [Nat.eqb]; auto; (transitivity (s_zdot (s_zcol m 0) (s_zcol m 1)); [unfold s_zdot; ring|exact E]) || (transitivity (s_zdot (s_zcol m 0) (s_zcol m 2)); [unfold s_zdot; ring|exact F]) || (transitivity (s_zdot (s_zcol m 1) (s_zcol m 2)); [unfold s_zdot; ring|exact G]). }
  cbv zeta. repeat match goal with |- _ /\ _ => split | |- s_zrot _ => apply K | |- s_intm _ => unfold s_intm, s_int | |- s_nat32m _ => unfold s_nat32m, s_nat32 end; cbn; lia.
Qed.
