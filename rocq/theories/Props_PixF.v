(** * C102: the line of sight of a pixel, projected back, on doubles *)
From Coq Require Import ZArith Reals Lra Lia Bool.
From Flocq Require Import Core BinarySingleNaN.
From Verif Require Import Num NumOrd MathTypes Outcome Mesh Depth Viewer SpecRound SpecPix P_Tac P_Math P_Round P_Depth P_PixF.
Local Open Scope R_scope.
Local Notation fin := (is_finite (prec := 53) (emax := 1024)).

Section Pix.
  Context (c : cam F64) (x y : Z) (d : F64) (CR : s_cam_range c) (DR : s_depth_range d) (IX : s_int x) (IY : s_int y).
  Let q : vec2 F64 := project3Dto2D c (vscale (project2Dto3D c x y) d).

  (** the point at depth d on the line of sight of a pixel is projected back next to the pixel: seven roundings relative to the size of the
      pixel coordinates and the optical centre *)
  Theorem C102_close : (s_fin (v2x q) /\ s_fin (v2y q)) /\
    Rabs (B2R (v2x q) - IZR x) <= 7 * uro * (Rabs (IZR x) + Rabs (B2R (c_cx c))) + 5 * bpow radix2 (-800) /\
    Rabs (B2R (v2y q) - IZR y) <= 7 * uro * (Rabs (IZR y) + Rabs (B2R (c_cy c))) + 5 * bpow radix2 (-800).
  Proof.
    destruct CR as [[F1 [F2 [F3 [F4 [F5 F6]]]]] [T1 [T2 [[X1 X2] [[Y1 Y2] [C1 C2]]]]]]. destruct DR as [FD [D1 D2]]. unfold s_int, s_fin in *.
    assert (UP : forall a, Rabs a <= bpow radix2 40 -> Rabs a <= bpow radix2 100). { intros a A. apply (bp_up _ _ _ A). lia. }
    assert (AX := axis_close (fun a => a) 1 (or_introl eq_refl) (fun a H => H) (fun a _ => eq_sym (Rmult_1_l (B2R a))) (c_fx c) d (c_cx c) (c_tx c) x F1 FD F3 F5 T1 ltac:(lia) (UP _ C1) X1 X2 D1 D2).
    assert (AY := axis_close (@nopp F64 _) (Ropp 1) (or_intror eq_refl) (fun a H => proj1 (opp_R a H)) ltac:(intros a H; rewrite (proj2 (opp_R a H)); ring) (c_fy c) d (c_cy c) (c_ty c) y F2 FD F4 F6 T2 ltac:(lia) (UP _ C2) Y1 Y2 D1 D2).
    exact (conj (conj (proj1 AX) (proj1 AY)) (conj (proj2 AX) (proj2 AY))).
  Qed.
  Lemma half : Rabs (B2R (v2x q) - IZR x) < / 2 /\ Rabs (B2R (v2y q) - IZR y) < / 2.
  Proof.
    destruct C102_close as [_ [A B]]. destruct CR as [_ [_ [_ [_ [_ [C1 C2]]]]]]. unfold s_int in IX, IY. change (bpow radix2 40) with 1099511627776 in C1, C2.
    assert (BX : Rabs (IZR x) <= 2147483648) by (rewrite <- abs_IZR; apply IZR_le; lia). assert (BY : Rabs (IZR y) <= 2147483648) by (rewrite <- abs_IZR; apply IZR_le; lia).
    assert (E : bpow radix2 (-800) <= / 1024) by (change (/ 1024) with (bpow radix2 (-10)); apply bpow_le; lia). unfold uro in A, B. split; lra.
  Qed.
  (** hence the nearest integers are the pixel *)
  Theorem C102_nearest : forall i, (i <> x -> Rabs (B2R (v2x q) - IZR x) < Rabs (B2R (v2x q) - IZR i)) /\ (i <> y -> Rabs (B2R (v2y q) - IZR y) < Rabs (B2R (v2y q) - IZR i)).
  Proof.
    assert (N : forall r z i, Rabs (r - IZR z) < / 2 -> i <> z -> Rabs (r - IZR z) < Rabs (r - IZR i)).
    { intros r z i H NE. assert (G : 1 <= Rabs (IZR i - IZR z)). { rewrite <- minus_IZR, <- abs_IZR. apply IZR_le. lia. }
      assert (T : Rabs (IZR i - IZR z) <= Rabs (r - IZR z) + Rabs (r - IZR i)). { replace (IZR i - IZR z) with ((r - IZR z) + - (r - IZR i)) by ring. eapply Rle_trans; [apply Rabs_triang|]. rewrite Rabs_Ropp. lra. } lra. }
    intros i. destruct half as [A B]. split; intros NE; apply N; auto.
  Qed.
  Lemma trunc_near : forall (a : F64) z, fin a = true -> s_int z -> Rabs (B2R a - IZR z) < / 2 -> exists z', toint a = Some z' /\ s_or_inward z z'.
  Proof.
    intros a z F I H. apply Rabs_def2 in H as [H1 H2]. unfold s_int in I. exists (Ztrunc (B2R a)).
    assert (S : s_or_inward z (Ztrunc (B2R a))).
    { unfold s_or_inward. destruct (Z_lt_le_dec 0 z) as [P|P]; [|destruct (Z_lt_le_dec z 0) as [Q|Q]].
      - assert (Z0 : 1 <= IZR z) by (apply IZR_le; lia). rewrite Ztrunc_floor by lra.
        pose proof (Zfloor_lb (B2R a)) as L. pose proof (Zfloor_ub (B2R a)) as U. set (f := Zfloor (B2R a)) in *. assert (f < z + 1)%Z by (apply lt_IZR; rewrite plus_IZR; lra). assert (z - 1 < f + 1)%Z by (apply lt_IZR; rewrite plus_IZR, minus_IZR; lra). lia.
      - assert (Z0 : IZR z <= -1) by (apply IZR_le; lia). rewrite Ztrunc_ceil by lra. unfold Zceil.
        pose proof (Zfloor_lb (- B2R a)) as L. pose proof (Zfloor_ub (- B2R a)) as U. set (f := Zfloor (- B2R a)) in *. assert (- f < z + 2)%Z by (apply lt_IZR; rewrite opp_IZR, plus_IZR; lra). assert (z - 1 < - f)%Z by (apply lt_IZR; rewrite opp_IZR, minus_IZR; lra). lia.
      - left. assert (z = 0%Z) by lia. subst z. destruct (Rle_or_lt 0 (B2R a)); [rewrite Ztrunc_floor by auto; apply Zfloor_imp; cbn; lra|].
        rewrite Ztrunc_ceil by lra. apply Zceil_imp; cbn; lra. }
    split; auto. apply toint_key. exists (B2R a). split; [|split; [reflexivity|]]. { cbn [nkey NumOrdF]. destruct a; try discriminate F; reflexivity. }
    unfold s_or_inward in S. lia.
  Qed.
  (** project3Dto2D<double, int> truncates: it gives the pixel or a neighbour nearer to zero, never anything else, and is not undefined *)
  Theorem C102_int_partial : exists x' y', project3Dto2Di c (vscale (project2Dto3D c x y) d) = Ret (x', y') /\ s_or_inward x x' /\ s_or_inward y y'.
  Proof.
    destruct C102_close as [[FX FY] _]. destruct half as [A B]. destruct (trunc_near _ x FX IX A) as [x' [TX SX]]. destruct (trunc_near _ y FY IY B) as [y' [TY SY]].
    exists x', y'. split; auto. unfold project3Dto2Di. cbv zeta. fold q. rewrite TX. cbn [or_ub obind]. rewrite TY. reflexivity.
  Qed.
  (** the truncated result is the pixel exactly when the double is not on the inner side of it *)
  Theorem C102_int_iff_partial : (0 <= x)%Z -> (0 <= y)%Z -> (project3Dto2Di c (vscale (project2Dto3D c x y) d) = Ret (x, y) <->
    (x = 0%Z \/ IZR x <= B2R (v2x q)) /\ (y = 0%Z \/ IZR y <= B2R (v2y q))).
  Proof.
    intros X0 Y0. destruct C102_close as [[FX FY] _]. destruct half as [A B]. destruct (trunc_near _ x FX IX A) as [x' [TX SX]]. destruct (trunc_near _ y FY IY B) as [y' [TY SY]].
    assert (E : project3Dto2Di c (vscale (project2Dto3D c x y) d) = Ret (x', y')) by (unfold project3Dto2Di; cbv zeta; fold q; rewrite TX; cbn [or_ub obind]; rewrite TY; reflexivity).
    assert (K : forall (a : F64) z z', fin a = true -> (0 <= z)%Z -> Rabs (B2R a - IZR z) < / 2 -> toint a = Some z' -> s_or_inward z z' -> (z' = z <-> z = 0%Z \/ IZR z <= B2R a)).
    { intros a z z' F Z0 H T S. apply Rabs_def2 in H as [H1 H2]. unfold s_or_inward in S. destruct (Z.eq_dec z 0) as [ZE|ZE]; [split; [auto|lia]|]. assert (P : 1 <= IZR z) by (apply IZR_le; lia).
      apply toint_key in T as [r [NK [-> _]]]. assert (r = B2R a) by (cbn [nkey NumOrdF] in NK; destruct a; try discriminate F; cbn in NK; injection NK as <-; reflexivity). subst r.
      rewrite Ztrunc_floor in * by lra. split.
      - intros E'. right. rewrite <- E'. apply Zfloor_lb.
      - intros [?|L]; [contradiction|]. apply Zfloor_imp. rewrite plus_IZR. lra. }
    rewrite E. pose proof (K _ _ _ FX X0 A TX SX). pose proof (K _ _ _ FY Y0 B TY SY). split.
    - intros H1. injection H1 as -> ->. split; tauto.
    - intros [P Q]. f_equal. f_equal; tauto.
  Qed.
End Pix.
Print Assumptions C102_close.
Print Assumptions C102_nearest.
Print Assumptions C102_int_partial.
Print Assumptions C102_int_iff_partial.

(** the camera that the library's own viewers use: pixel (12, 100) seen at depth 1 comes back as (11, 100) *)
Definition show_cam : cam F64 := viewer_cam 640 480 (nofZ 640) (nofZ 480).
Lemma show_cam_range : s_cam_range show_cam.
Proof.
  assert (V : forall (a : F64) m e, B2SF a = SpecFloat.S754_finite false m e -> B2R a = IZR (Zpos m) * bpow radix2 e). { intros a m e H. rewrite <- (SF2R_B2SF _ _ a), H. reflexivity. }
  assert (E1 : B2R (c_fx show_cam) = 4875286742913973 * bpow radix2 (-43)) by (apply V; vm_compute; reflexivity).
  assert (E2 : B2R (c_fy show_cam) = 4875286742913973 * bpow radix2 (-43)) by (apply V; vm_compute; reflexivity).
  assert (E3 : B2R (c_cx show_cam) = 5638295627235328 * bpow radix2 (-44)) by (apply V; vm_compute; reflexivity).
  assert (E4 : B2R (c_cy show_cam) = 8461841487364096 * bpow radix2 (-45)) by (apply V; vm_compute; reflexivity).
  change (bpow radix2 (-43)) with (/ 8796093022208) in E1, E2. change (bpow radix2 (-44)) with (/ 17592186044416) in E3. change (bpow radix2 (-45)) with (/ 35184372088832) in E4.
  assert (L : bpow radix2 (- (100)) <= 1) by (change 1 with (bpow radix2 0); apply bpow_le; lia). assert (U : 1024 <= bpow radix2 100) by (change 1024 with (bpow radix2 10); apply bpow_le; lia).
  unfold s_cam_range. rewrite E1, E2, E3, E4. change (bpow radix2 40) with 1099511627776.
  split; [repeat (split; [vm_compute; reflexivity|]); vm_compute; reflexivity|]. split; [reflexivity|]. split; [reflexivity|]. split; [lra|]. split; [lra|]. split; rewrite Rabs_right; lra.
Qed.
Lemma one_range : s_depth_range (nofZ 1).
Proof.
  destruct (ofZ_R 1 ltac:(lia)) as [A B]. unfold s_depth_range, s_fin. rewrite B. split; auto.
  assert (L : bpow radix2 (- (100)) <= 1) by (change 1 with (bpow radix2 0); apply bpow_le; lia). assert (U : 1 <= bpow radix2 100) by (change 1 with (bpow radix2 0); apply bpow_le; lia). lra.
Qed.
Definition is_pix (r : outcome (Z * Z)) (x y : Z) : bool := match r with Ret (a, b) => (Z.eqb a x && Z.eqb b y)%bool | _ => false end.
Lemma is_pix_eq : forall r x y, is_pix r x y = true -> r = Ret (x, y).
Proof. intros [[a b]| | |] x y H; cbn in H; try discriminate. apply andb_prop in H as [A B]. apply Z.eqb_eq in A. apply Z.eqb_eq in B. subst. reflexivity. Qed.
Theorem C102_refuted : exists (c : cam F64) (x y : Z) (d : F64), s_cam_range c /\ s_depth_range d /\ (0 <= x < c_w c)%Z /\ (0 <= y < c_h c)%Z /\
  project3Dto2Di c (vscale (project2Dto3D c x y) d) = Ret ((x - 1)%Z, y).
Proof.
  exists show_cam, 12%Z, 100%Z, (nofZ 1). split; [apply show_cam_range|]. split; [apply one_range|]. split; [cbn; lia|]. split; [cbn; lia|]. apply is_pix_eq. vm_compute. reflexivity.
Qed.
Print Assumptions C102_refuted.

(** the same camera and depth meet the hypotheses; pixel (100, 100) comes back exactly *)
Example C102_nonvacuous : s_cam_range show_cam /\ s_depth_range (nofZ 1) /\ s_int 100 /\ project3Dto2Di show_cam (vscale (project2Dto3D show_cam 100 100) (nofZ 1)) = Ret (100%Z, 100%Z).
Proof. split; [apply show_cam_range|]. split; [apply one_range|]. split; [unfold s_int; lia|]. apply is_pix_eq. vm_compute. reflexivity. Qed.
