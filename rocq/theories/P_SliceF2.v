(** * Scanning a mesh on doubles: the slices drawn and the meshes skipped *)
From Coq Require Import ZArith NArith List Bool Lia Reals Lra Psatz.
From Flocq Require Import Core BinarySingleNaN.
From Verif Require Import Num MathTypes Outcome Mesh Spec SpecRound SpecQuery Laser SpecLaser SpecLaserF SpecSliceF Libm
  P_Tac P_Math P_Mesh P_MeshGeo P_Round P_Round2 P_Round3 P_OctF P_RayF P_InsideF P_Laser4 P_Laser5 P_LaserF P_HeightF P_CompF1 P_Composite P_SliceF P_KeyF Props_Mesh.
Import ListNotations.
Local Open Scope R_scope.
Local Notation fin := (is_finite (prec := 53) (emax := 1024)).

(** ** the triangles one after the other *)
Section Draw.
  Context (L : libm).
  Local Instance TL : Trig F64 := TrigF L.
  (** drawing a list of segments *)
  Fixpoint draw_F (l : lrf F64) (qs : list (vec2 F64 * vec2 F64)) (res : rr F64) : outcome (rr F64) :=
    match qs with [] => Ret res | (p, q) :: r => obind (renderLine l p q res) (draw_F l r) end.
  Definition start_F (l : lrf F64) (ranges : list F64) : rr F64 :=
    RR 0 (u32 (N.of_nat (length (l_rays l)))) (if Nat.eqb (length ranges) (length (l_rays l)) then ranges else resize (length (l_rays l)) n0 ranges).
  Definition at_tri (pose : trans3 F64) (t : vec3 F64 * vec3 F64 * vec3 F64) : vec3 R * vec3 R * vec3 R :=
    let '(a, b, c) := t in (s_at pose a, s_at pose b, s_at pose c).
  Lemma tris_F : forall l pts pose ts tris M N h, s_pose N pose -> M + N <= bpow radix2 400 -> eta <= h ->
    (forall v, In v pts -> s_vert M v /\ s_tall h (vert_z pose v)) -> s_soup pts (map idx ts) = Some tris ->
    exists qs, s_slicesF (ers M N h) (dlt M N) (map (at_tri pose) tris) qs /\ forall res, render_tris l pts pose ts res = draw_F l qs res.
  Proof.
    intros l pts pose ts tris M N h HP H EH HV. revert tris. induction ts as [|[i1 i2 i3] ts IH]; intros tris SP.
    - cbn in SP. injection SP as <-. exists []. split; [constructor|reflexivity].
    - cbn [map s_soup idx] in SP. rewrite !s_nth_nth_error in SP. cbn [ti1 ti2 ti3] in SP.
      destruct (nth_error pts (N.to_nat i1)) as [a|] eqn:A; [|discriminate]. destruct (nth_error pts (N.to_nat i2)) as [b|] eqn:B; [|discriminate].
      destruct (nth_error pts (N.to_nat i3)) as [c|] eqn:C; [|discriminate]. destruct (s_soup pts (map idx ts)) as [rest|] eqn:SR; [|discriminate]. injection SP as <-.
      destruct (HV a (nth_error_In _ _ A)) as [VA TA]. destruct (HV b (nth_error_In _ _ B)) as [VB TB]. destruct (HV c (nth_error_In _ _ C)) as [VC TC].
      pose proof (slice_F pose a b c M N h HP VA VB VC H EH TA TB TC) as SL. destruct (IH rest eq_refl) as [qs [Q E]].
      destruct (slice (vert_z pose a) (vert_z pose b) (vert_z pose c) (vert_xy pose a) (vert_xy pose b) (vert_xy pose c)) as [[q1 q2]|] eqn:ES.
      + exists ((q1, q2) :: qs). split; [cbn [map at_tri]; apply slf_cut; auto|]. intros res. cbn [render_tris ti1 ti2 ti3 draw_F]. unfold point_at. rewrite A, B, C. cbn [or_ub obind]. rewrite ES.
        destruct (renderLine l q1 q2 res) as [r1| | |]; cbn [obind]; [apply E|reflexivity..].
      + exists qs. split; [cbn [map at_tri]; apply slf_miss; auto|]. intros res. cbn [render_tris ti1 ti2 ti3]. unfold point_at. rewrite A, B, C. cbn [or_ub obind]. rewrite ES. cbn [obind]. apply E.
  Qed.
End Draw.
(** ** meshes that are skipped *)
Lemma ortho_norm : forall d m v, 0 <= d -> s_ortho d m -> s_norm (m3mulv m v) <= (1 + 2 * d) * s_norm v.
Proof.
  intros d m [x y z] D0 [[O1 [O2 O3]] [O4 [O5 O6]]]. destruct m as [a b c e f g h i j]. unfold col1, col2, col3, s_dot in *. cbn [mxx mxy mxz myx myy myz mzx mzy mzz vx vy vz] in *.
  unfold s_norm. rewrite <- (sqrt_square (1 + 2 * d)) by lra. rewrite <- sqrt_mult_alt by nra. apply sqrt_le_1_alt. unfold s_dot, m3mulv. unR. cbn [mxx mxy mxz myx myy myz mzx mzy mzz vx vy vz].
  apply Rabs_le_inv in O1, O2, O3, O4, O5, O6.
  set (k1 := a * a + e * e + h * h - 1) in *. set (k2 := b * b + f * f + i * i - 1) in *. set (k3 := c * c + g * g + j * j - 1) in *.
  set (k4 := a * b + e * f + h * i) in *. set (k5 := a * c + e * g + h * j) in *. set (k6 := b * c + f * g + i * j) in *.
  replace ((a * x + b * y + c * z) * (a * x + b * y + c * z) + (e * x + f * y + g * z) * (e * x + f * y + g * z) + (h * x + i * y + j * z) * (h * x + i * y + j * z))
    with (x * x + y * y + z * z + (k1 * (x * x) + k2 * (y * y) + k3 * (z * z) + 2 * k4 * (x * y) + 2 * k5 * (x * z) + 2 * k6 * (y * z))) by (unfold k1, k2, k3, k4, k5, k6; ring).
  clearbody k1 k2 k3 k4 k5 k6. clear a b c e f g h i j.
  pose proof (Rle_0_sqr x) as X0. pose proof (Rle_0_sqr y) as Y0. pose proof (Rle_0_sqr z) as Z0. unfold Rsqr in *.
  assert (SQ : forall k s, 0 <= s -> - d <= k <= d -> k * s <= d * s) by (intros; apply Rmult_le_compat_r; lra).
  assert (MX : forall k p q, - d <= k <= d -> 2 * k * (p * q) <= d * (p * p + q * q)).
  { intros k p q HK. pose proof (Rle_0_sqr (p + q)). pose proof (Rle_0_sqr (p - q)). unfold Rsqr in *.
    assert (0 <= (d - k) * ((p - q) * (p - q) + (p + q) * (p + q)) / 4) by (apply Rmult_le_pos; [apply Rmult_le_pos; lra|lra]).
    assert (0 <= (d + k) * ((p - q) * (p - q))) by (apply Rmult_le_pos; lra). assert (0 <= (d - k) * ((p + q) * (p + q))) by (apply Rmult_le_pos; lra). lra. }
  pose proof (SQ k1 _ X0 O1). pose proof (SQ k2 _ Y0 O2). pose proof (SQ k3 _ Z0 O3). pose proof (MX k4 x y O4). pose proof (MX k5 x z O5). pose proof (MX k6 y z O6).
  assert (0 <= d * (x * x + y * y + z * z)) by (apply Rmult_le_pos; lra). assert (0 <= d * d * (x * x + y * y + z * z)) by (apply Rmult_le_pos; [apply Rmult_le_pos; lra|lra]). lra.
Qed.
(** computed length of the offset, when the squared length exceeds a number that is not tiny *)
Lemma off_len : forall (o : vec3 F64) N (s : F64), s_finv o -> s_bound N (rv o) -> N <= bpow radix2 400 -> fin s = true -> bpow radix2 (-300) <= B2R s -> nltb s (vlength2 o) = true ->
  fin (nsqrt (vlength2 o)) = true /\ Rabs (B2R (nsqrt (vlength2 o)) - s_norm (rv o)) <= 6 * uro * s_norm (rv o).
Proof.
  intros o N s FO BO NU FS SL LT. apply (vlength_b o FO). split.
  - apply Rnot_lt_le. intros SM. assert (B1 : s_bound (bpow radix2 (-450)) (rv o)).
    { assert (K : forall x, x * x <= s_norm2 (rv o) -> Rabs x <= bpow radix2 (-450)).
      { intros x X. rewrite <- (Rabs_pos_eq (bpow radix2 (-450))) by apply bpow_ge_0. apply Rsqr_le_abs_0. unfold Rsqr. rewrite <- bpow_plus. change (-450 + -450)%Z with (-900)%Z. lra. }
      unfold s_norm2, s_dot in K. pose proof (Rle_0_sqr (vx (rv o))). pose proof (Rle_0_sqr (vy (rv o))). pose proof (Rle_0_sqr (vz (rv o))). unfold Rsqr in *. repeat split; apply K; lra. }
    destruct FO as [F1 [F2 F3]], B1 as [B1 [B2 B3]]. cbn [rv vx vy vz] in B1, B2, B3.
    assert (PR : bpow radix2 (-450) * bpow radix2 (-450) = bpow radix2 (-900)) by (rewrite <- bpow_plus; reflexivity).
    assert (TI : bpow radix2 (-900) <= bpow radix2 (-310)) by (apply bpow_le; lia). assert (ET : eta <= bpow radix2 (-310)) by (apply eta_le; lia).
    assert (S3 : bpow radix2 (-300) = 1024 * bpow radix2 (-310)) by (change (-300)%Z with (10 + -310)%Z; rewrite bpow_plus; reflexivity). pose proof (bpow_gt_0 radix2 (-310)) as P3.
    destruct (dot3_b (vx o) (vy o) (vz o) (vx o) (vy o) (vz o) (bpow radix2 (-450)) (bpow radix2 (-450))) as [FD ED]; auto.
    { rewrite PR. apply Rle_trans with (bpow radix2 0); [apply bpow_le; lia|]. pose proof (small_big 1 ltac:(change 1 with (bpow radix2 0); apply bpow_le; lia)) as SB. cbn [bpow]. lra. }
    change (fin (vlength2 o) = true) in FD. rewrite (ltb_R s (vlength2 o) FS FD) in LT. change (dot3 (vx o) (vy o) (vz o) (vx o) (vy o) (vz o)) with (vlength2 o) in ED. apply Rltb_true in LT. rewrite PR in ED. apply Rabs_le_inv in ED.
    unfold s_norm2, s_dot, rv in SM. cbn [vx vy vz] in SM. unfold uro in *. lra.
  - destruct BO as [B1 [B2 B3]]. assert (K : forall x, Rabs x <= N -> x * x <= bpow radix2 800).
    { intros x X. change 800%Z with (400 + 400)%Z. rewrite bpow_plus. replace (x * x) with (Rabs x * Rabs x) by (rewrite <- Rabs_mult; apply Rabs_pos_eq, Rle_0_sqr). apply Rmult_le_compat; try apply Rabs_pos; lra. }
    apply K in B1, B2, B3. unfold s_norm2, s_dot. assert (E9 : bpow radix2 900 = bpow radix2 98 * 4 * bpow radix2 800) by (change 900%Z with (98 + 2 + 800)%Z; rewrite !bpow_plus; reflexivity).
    assert (1 <= bpow radix2 98) by (change 1 with (bpow radix2 0); apply bpow_le; lia). pose proof (bpow_gt_0 radix2 800). nra.
Qed.
Lemma skip_F : forall L (l : lrf F64) mops (m : mesh F64) pose ranges tris rad N d, mesh_run mesh_new mops = Ret m -> (forall v, In v (m_points m) -> s_finv v) ->
  s_soup (m_points m) (map idx (m_tris m)) = Some tris -> s_max_radius (map rv (m_points m)) rad -> bpow radix2 (-100) <= rad <= bpow radix2 99 ->
  s_pose N pose -> N <= bpow radix2 400 -> 0 <= d -> s_ortho d (rm (tR pose)) -> s_fin (l_rmax l) ->
  @lrf_render F64 NumF (TrigF L) l m pose ranges = @render_tris F64 NumF (TrigF L) l (m_points m) pose (m_tris m) (start_F l ranges) \/
  (@lrf_render F64 NumF (TrigF L) l m pose ranges = Ret (start_F l ranges) /\
   s_hidden ((2 * d + 20 * uro) * rad) (B2R (l_rmax l) - (2 * d + 20 * uro) * rad - 8 * uro * s_norm (rv (MathTypes.tt pose))) (map (at_tri pose) tris)).
Proof.
  intros L l mops m pose ranges tris rad N d RUN FP S MR RRG [FM [FT [BM BT]]] NU D0 OR FX.
  assert (ER : fst (getMaxRadius m) = nsqrt (fold_left (fun (c : F64) (p : vec3 F64) => nmax c (vlength2 p)) (m_points m) (n0 : F64))).
  { destruct (C12_doubles m mops RUN) as [_ E2]. rewrite E2. unfold getMaxRadius, getSquaredMaxRadius, uncached.
    cbn [m_points m_tris m_r m_r2]. assert (Z : neqb (n0 : F64) n0 = true) by (vm_compute; reflexivity). rewrite Z. cbn [fst snd]. reflexivity. }
  destruct (radius_F (m_points m) rad RRG FP MR) as [_ [_ [FS [ES _]]]]. unfold lrf_render. rewrite ER. set (r := nsqrt (fold_left _ (m_points m) (n0 : F64))) in *. clearbody r. clear ER.
  cbv zeta. fold (start_F l ranges).
  destruct (_ && _)%bool eqn:C; [right|left; reflexivity]. split; [reflexivity|]. apply andb_prop in C as [_ C].
  set (o := MathTypes.tt pose) in *. pose proof uro_pos as UP. assert (RP : 0 < rad) by (pose proof (bpow_gt_0 radix2 (-100)); lra). apply Rabs_le_inv in ES.
  assert (UR : 0 < uro * rad) by (apply Rmult_lt_0_compat; auto). assert (DR : 0 <= d * rad) by (apply Rmult_le_pos; lra).
  assert (KEY : forall a b c x, In (a, b, c) (map (at_tri pose) tris) -> in_triangle a b c x -> exists w, s_norm w <= (1 + 2 * d) * rad /\ x = V3 (vx w + vx (rv o)) (vy w + vy (rv o)) (vz w + vz (rv o))).
  { intros a b c x I T. apply in_map_iff in I as [[[a0 b0] c0] [E I]]. cbn [at_tri] in E. injection E as <- <- <-.
    destruct (moved_combo (T3 (rm (tR pose)) (rv o)) (rv a0) (rv b0) (rv c0) x T) as [v [V ->]].
    exists (m3mulv (rm (tR pose)) v). split; [|reflexivity].
    apply Rle_trans with ((1 + 2 * d) * s_norm v); [apply ortho_norm; auto|]. apply Rmult_le_compat_l; [lra|].
    destruct MR as [R0 [RB _]]. assert (PB : forall q, In q (m_points m) -> s_norm2 (rv q) <= rad * rad).
    { intros q Q. assert (Q' := RB (rv q) (in_map rv _ _ Q)). unfold s_norm in Q'. unfold s_norm2. apply sqrt_le_0; [apply norm2_nonneg|nra|]. rewrite sqrt_square by lra. exact Q'. }
    assert (IN : In a0 (m_points m) /\ In b0 (m_points m) /\ In c0 (m_points m)) by (eapply soup_inT; eassumption).
    destruct IN as [IA [IB IC]]. unfold s_norm. rewrite <- (sqrt_square rad) by lra. apply sqrt_le_1_alt. apply (convex_norm (rv a0) (rv b0) (rv c0)); auto. }
  apply orb_prop in C as [C|C].
  - destruct FT as [_ [_ FZ]]. destruct (abs_R (vz o) FZ) as [FA EA]. rewrite (ltb_R _ _ FS FA), EA in C. apply Rltb_true in C.
    assert (ZC : forall w : vec3 R, s_norm w <= (1 + 2 * d) * rad -> Rabs (vz w) <= (1 + 2 * d) * rad). { intros w W. eapply Rle_trans; [apply (proj2 (proj2 (norm_comp w)))|exact W]. }
    unfold Rabs in C. destruct (Rcase_abs (B2R (vz o))) as [NG|PS].
    + right. left. intros a b c x I T. destruct (KEY a b c x I T) as [w [W ->]]. apply ZC in W. apply Rabs_le_inv in W. cbn [vz rv]. lra.
    + left. intros a b c x I T. destruct (KEY a b c x I T) as [w [W ->]]. apply ZC in W. apply Rabs_le_inv in W. cbn [vz rv]. lra.
  - apply andb_prop in C as [C1 C2]. right. right.
    assert (RS : rad / 2 <= B2R r <= 2 * rad) by (unfold uro in *; lra).
    assert (RU : 2 * rad <= bpow radix2 100) by (change 100%Z with (1 + 99)%Z; rewrite bpow_plus; change (bpow radix2 1) with 2; lra).
    assert (RL : bpow radix2 (-101) <= rad / 2) by (assert (bpow radix2 (-100) = 2 * bpow radix2 (-101)) by (change (-100)%Z with (1 + -101)%Z; rewrite bpow_plus; reflexivity); lra).
    pose proof (bpow_gt_0 radix2 (-101)) as P1.
    assert (BG : bpow radix2 300 <= big / 8) by (pose proof (small_big (bpow radix2 300) ltac:(apply bpow_le; lia)); pose proof (bpow_gt_0 radix2 300); lra).
    assert (PRU : B2R r * B2R r <= bpow radix2 200) by (change 200%Z with (100 + 100)%Z; rewrite bpow_plus; apply Rmult_le_compat; lra).
    assert (PRL : bpow radix2 (-202) <= B2R r * B2R r) by (change (-202)%Z with (-101 + -101)%Z; rewrite bpow_plus; apply Rmult_le_compat; lra).
    assert (B23 : bpow radix2 200 <= bpow radix2 300) by (apply bpow_le; lia). pose proof big_pos as GP.
    destruct (mul_R r r FS FS) as [FRR ERR]. { rewrite Rabs_pos_eq by nra. lra. }
    pose proof (rnd_err (B2R r * B2R r)) as E2. rewrite <- ERR in E2. rewrite (Rabs_pos_eq (B2R r * B2R r)) in E2 by nra. apply Rabs_le_inv in E2.
    assert (ET : eta <= bpow radix2 (-300)) by (apply eta_le; lia). assert (S3 : bpow radix2 (-202) = bpow radix2 88 * 1024 * bpow radix2 (-300)) by (change (-202)%Z with (88 + 10 + -300)%Z; rewrite !bpow_plus; reflexivity).
    pose proof (bpow_gt_0 radix2 (-300)) as P3. assert (G8 : 1 <= bpow radix2 88) by (change 1 with (bpow radix2 0); apply bpow_le; lia).
    assert (S4 : 1024 * bpow radix2 (-300) <= bpow radix2 (-202)) by (rewrite S3; apply Rmult_le_compat_r; lra).
    destruct (off_len o N (nmul r r) FT BT NU FRR) as [FL EL]. { unfold uro in *. lra. } { exact C1. }
    set (K := nsqrt (vlength2 o)) in *. set (D := s_norm (rv o)) in *. assert (DP : 0 <= D) by apply norm_nonneg. apply Rabs_le_inv in EL.
    assert (DU : D <= bpow radix2 402).
    { unfold D, s_norm. replace (bpow radix2 402) with (sqrt (bpow radix2 402 * bpow radix2 402)) by (apply sqrt_square; apply bpow_ge_0). apply sqrt_le_1_alt.
      destruct BT as [T1 [T2 T3]]. assert (KK : forall x, Rabs x <= N -> x * x <= bpow radix2 800).
      { intros x X. change 800%Z with (400 + 400)%Z. rewrite bpow_plus. replace (x * x) with (Rabs x * Rabs x) by (rewrite <- Rabs_mult; apply Rabs_pos_eq, Rle_0_sqr). apply Rmult_le_compat; try apply Rabs_pos; lra. }
      apply KK in T1, T2, T3. unfold s_dot. rewrite <- bpow_plus. assert (E9 : bpow radix2 (402 + 402) = 16 * bpow radix2 800) by (change (402 + 402)%Z with (4 + 800)%Z; rewrite bpow_plus; reflexivity).
      rewrite E9. pose proof (bpow_gt_0 radix2 800). lra. }
    assert (BG2 : bpow radix2 402 <= big / 8). { assert (bpow radix2 402 = 4 * bpow radix2 400) by (change 402%Z with (2 + 400)%Z; rewrite bpow_plus; reflexivity). pose proof (small_big (bpow radix2 400) ltac:(apply bpow_le; lia)). pose proof (bpow_gt_0 radix2 400). lra. }
    assert (B13 : bpow radix2 100 <= bpow radix2 300) by (apply bpow_le; lia).
    assert (UD : 0 <= uro * D <= / 1000000 * D) by (split; [apply Rmult_le_pos; lra|apply Rmult_le_compat_r; [auto|unfold uro; lra]]).
    destruct (sub_R K r FL FS) as [FSB ESB]. { apply Rabs_le. lra. }
    pose proof (rnd_plus (B2R K) (- B2R r) (gen_B2R _) (generic_format_opp _ _ _ (gen_B2R r))) as E3. change (B2R K + - B2R r) with (B2R K - B2R r) in E3. rewrite <- ESB in E3.
    rewrite (ltb_R _ _ FX FSB) in C2. apply Rltb_true in C2. apply Rabs_le_inv in E3.
    assert (AB : uro * Rabs (B2R K - B2R r) <= uro * (11 / 10 * D + 11 / 10 * rad)).
    { apply uro_le. apply Rabs_le. unfold uro in *. lra. }
    intros a b c x I T. destruct (KEY a b c x I T) as [w [W ->]].
    assert (TR : D <= s_norm (V3 (vx w + vx (rv o)) (vy w + vy (rv o)) (vz w + vz (rv o))) + s_norm w).
    { unfold D. set (p := V3 (vx w + vx (rv o)) (vy w + vy (rv o)) (vz w + vz (rv o))). pose proof (norm_tri p (V3 (- vx w) (- vy w) (- vz w)) (rv o)) as NT.
      assert (NW : s_norm (V3 (- vx w) (- vy w) (- vz w)) = s_norm w) by (unfold s_norm, s_dot; cbn [vx vy vz]; f_equal; ring). rewrite NW in NT. apply NT. unfold p. cbn [vx vy vz]. apply V3_eq; cbn [rv vx vy vz]; ring. }
    unfold uro in *. lra.
Qed.
