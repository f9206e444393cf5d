(** * The millimetre keys of vertices on doubles *)
From Coq Require Import ZArith NArith List Bool Reals Lra Lia Psatz.
From Flocq Require Import Core Relative BinarySingleNaN.
From Verif Require Import Num NumOrd MathTypes Outcome Mesh Import Spec SpecRound P_Mesh P_Tac P_Math P_MeshGeo P_Round P_Depth P_PixF.
Local Open Scope R_scope.
Local Notation fin := (is_finite (prec := 53) (emax := 1024)).

(** the product with an integer never loses bits to underflow *)
Lemma rnd_zmul : forall (k : Z) x, gen x -> Rabs (rnd (IZR k * x) - IZR k * x) <= uro * Rabs (IZR k * x).
Proof.
  intros k x X. destruct (Rle_lt_dec (bpow radix2 (53 + -1074)) (Rabs (IZR k * x))) as [L|L].
  - pose proof (relative_error_N_FLT radix2 (-1074) 53 prec64_gt0 (fun t => negb (Z.even t)) (IZR k * x)) as E. rewrite uro_bpow in E.
    apply E. apply Rle_trans with (bpow radix2 (53 + -1074)); [apply bpow_le; lia|]. auto.
  - rewrite rnd_gen. { unfold Rminus. rewrite Rplus_opp_r, Rabs_R0. apply Rmult_le_pos; [unfold uro; lra|apply Rabs_pos]. }
    unfold gen in *. change (SpecFloat.fexp 53 1024) with (FLT_exp (-1074) 53) in *.
    destruct (@FLT_format_generic radix2 (-1074) 53 prec64_gt0 x X) as [f F1 F2 F3]. apply generic_format_FLT.
    exists (Float radix2 (k * Fnum f) (Fexp f)); [rewrite F1; unfold F2R; cbn [Fnum Fexp]; rewrite mult_IZR; ring| |exact F3].
    cbn [Fnum Fexp]. apply lt_IZR. rewrite IZR_Zpower by lia. rewrite abs_IZR. apply Rmult_lt_reg_r with (bpow radix2 (Fexp f)); [apply bpow_gt_0|].
    rewrite <- bpow_plus. eapply Rle_lt_trans; [|eapply Rlt_le_trans; [exact L|apply bpow_le; cbn [Fexp] in F3; lia]].
    rewrite F1. unfold F2R. rewrite mult_IZR, <- Rmult_assoc. rewrite (Rabs_mult _ (bpow _ _)). rewrite (Rabs_pos_eq (bpow _ _)) by apply bpow_ge_0. lra.
Qed.
(** a finite product was formed from finite factors and did not overflow *)
Lemma mul_fin : forall a b : F64, fin (nmul a b) = true -> fin a = true /\ fin b = true /\ B2R (nmul a b) = rnd (B2R a * B2R b).
Proof.
  intros a b H. pose proof (Bmult_correct 53 1024 prec64_gt0 emax64_gt mode_NE a b) as C. cbn [nmul NumF] in *.
  destruct (Rlt_bool _ _).
  - destruct C as [C1 [C2 _]]. change (Bmult mode_NE a b) with (Bmult (prec_gt_0_ := prec64_gt0) (prec_lt_emax_ := emax64_gt) mode_NE a b) in H. rewrite C2 in H. apply andb_prop in H as [H1 H2]. split; auto. 
  - exfalso. rewrite <- is_finite_SF_B2SF in H. rewrite C in H. cbn in H. discriminate.
Qed.
Lemma toint_F : forall (a : F64) z, toint a = Some z <-> fin a = true /\ Ztrunc (B2R a) = z /\ int_range z.
Proof.
  intros a z. rewrite toint_key. unfold int_range. split.
  - intros [r [K [-> I]]]. cbn [nkey NumOrdF] in K. destruct a as [s|[|]| |s m e H]; cbn in K; try discriminate K; injection K as <-; (split; [reflexivity|]; split; [reflexivity|lia]).
  - intros [F [<- I]]. exists (B2R a). split; [|split; [reflexivity|lia]]. cbn [nkey NumOrdF]. destruct a as [s|s| |s m e H]; try discriminate F; reflexivity.
Qed.

(** what an equal integer part says about the exact values; D bounds the rounding error *)
Lemma key_near : forall a b X Y D, Ztrunc a = Ztrunc b -> Rabs (a - X) <= D -> Rabs (b - Y) <= D -> Rabs (X - Y) < 2 + 2 * D /\ (1 + D <= Rabs X -> Rabs (X - Y) < 1 + 2 * D).
Proof.
  intros a b X Y D E A B. destruct (trunc_close a b E) as [C1 C2].
  assert (T : Rabs (X - Y) <= Rabs (a - b) + 2 * D). { replace (X - Y) with ((a - b) + (- (a - X) + (b - Y))) by ring. eapply Rle_trans; [apply Rabs_triang|]. apply Rplus_le_compat_l. eapply Rle_trans; [apply Rabs_triang|]. rewrite Rabs_Ropp. lra. }
  split; [lra|]. intros G. assert (NZ : Ztrunc a <> 0%Z).
  { intros Z0. destruct (trunc_bounds a) as [[_ U] _]. rewrite Z0, Rabs_R0 in U. assert (Rabs X <= Rabs a + D). { replace X with (a + - (a - X)) by ring. eapply Rle_trans; [apply Rabs_triang|]. rewrite Rabs_Ropp. lra. } lra. }
  specialize (C2 NZ). lra.
Qed.
(** rounding error of the scaled coordinate of a vertex that has a key *)
Lemma int_mag : forall r z, Ztrunc r = z -> int_range z -> Rabs r < 2147483649.
Proof.
  intros r z <- I. destruct (trunc_bounds r) as [[_ U] _]. unfold int_range in I. assert (Rabs (IZR (Ztrunc r)) <= 2147483648). { rewrite <- abs_IZR. apply IZR_le. lia. } lra.
Qed.
Lemma coord_F : forall (x : F64) z, toint (nmul (nofZ 1000) x) = Some z -> fin x = true /\ int_range z /\ Ztrunc (rnd (1000 * B2R x)) = z /\
  Rabs (rnd (1000 * B2R x) - 1000 * B2R x) <= uro * Rabs (1000 * B2R x) /\ uro * Rabs (1000 * B2R x) <= / 4000000.
Proof.
  intros x z H. apply toint_F in H as [F [T I]]. destruct (mul_fin _ _ F) as [_ [FX V]]. destruct (ofZ_R 1000 ltac:(lia)) as [_ K]. rewrite V, K in T. split; auto. split; auto. split; auto.
  pose proof (rnd_zmul 1000 (B2R x) (gen_B2R x)) as E. split; auto. pose proof (int_mag _ _ T I) as M.
  assert (B : Rabs (1000 * B2R x) <= Rabs (rnd (1000 * B2R x)) + uro * Rabs (1000 * B2R x)).
  { rewrite <- (Rplus_0_l (1000 * B2R x)) at 1. replace (0 + 1000 * B2R x) with (rnd (1000 * B2R x) + - (rnd (1000 * B2R x) - 1000 * B2R x)) by ring. eapply Rle_trans; [apply Rabs_triang|]. rewrite Rabs_Ropp. lra. }
  unfold uro in *. lra.
Qed.
(** the same for the import, where the factor 1000 * scale is rounded first *)
Lemma scoord_F : forall (s x : F64) z, toint (nmul (nmul (nofZ 1000) s) x) = Some z -> fin s = true /\ fin x = true /\ exists r, Ztrunc r = z /\
  Rabs (r - 1000 * (B2R s * B2R x)) <= / 2000000.
Proof.
  intros s x z H. apply toint_F in H as [F [T I]]. destruct (mul_fin _ _ F) as [F1 [FX V]]. destruct (mul_fin _ _ F1) as [_ [FS W]]. destruct (ofZ_R 1000 ltac:(lia)) as [_ K]. rewrite K in W. split; auto. split; auto.
  exists (B2R (nmul (nmul (nofZ 1000) s) x)). split; auto. pose proof (int_mag _ _ T I) as M. rewrite V in *. set (w := B2R (nmul (nofZ 1000) s)) in *.
  pose proof (rnd_zmul 1000 (B2R s) (gen_B2R s)) as E. rewrite <- W in E. pose proof (rnd_err (w * B2R x)) as E2. set (r := rnd (w * B2R x)) in *.
  assert (E3 : Rabs (w * B2R x - 1000 * (B2R s * B2R x)) <= uro * Rabs (1000 * (B2R s * B2R x))).
  { replace (w * B2R x - 1000 * (B2R s * B2R x)) with ((w - 1000 * B2R s) * B2R x) by ring. rewrite <- Rmult_assoc, !(Rabs_mult _ (B2R x)), <- Rmult_assoc. apply Rmult_le_compat_r; [apply Rabs_pos|exact E]. }
  set (P := 1000 * (B2R s * B2R x)) in *. set (q := w * B2R x) in *. clearbody r q P.
  assert (B1 : Rabs q <= Rabs r + Rabs (r - q)). { replace q with (r + - (r - q)) at 1 by ring. eapply Rle_trans; [apply Rabs_triang|]. rewrite Rabs_Ropp. lra. }
  assert (B2 : Rabs P <= Rabs q + Rabs (q - P)). { replace P with (q + - (q - P)) at 1 by ring. eapply Rle_trans; [apply Rabs_triang|]. rewrite Rabs_Ropp. lra. }
  assert (B3 : Rabs (r - P) <= Rabs (r - q) + Rabs (q - P)). { replace (r - P) with ((r - q) + (q - P)) by ring. apply Rabs_triang. }
  assert (ET : eta <= / 1000000000000). { apply Rle_trans with (bpow radix2 (-50)); [apply bpow_le; lia|]. change (bpow radix2 (-50)) with (/ 1125899906842624). lra. }
  unfold uro in *. lra.
Qed.
(** rounding never passes an integer: the integer part changes only by rounding onto the next integer *)
Lemma trunc_rnd : forall x, Rabs x <= 9007199254740990 -> Ztrunc (rnd x) = Ztrunc x \/ (rnd x = IZR (Ztrunc (rnd x)) /\ Rabs x <= Rabs (rnd x)).
Proof.
  assert (G : forall k, (Z.abs k <= 9007199254740992)%Z -> gen (IZR k)).
  { intros k K. unfold gen. change (SpecFloat.fexp 53 1024) with (FLT_exp (-1074) 53). replace (IZR k) with (F2R (Float radix2 k 0)) by (unfold F2R; cbn; ring).
    destruct (Z.eq_dec (Z.abs k) 9007199254740992) as [E|E].
    - replace (F2R (Float radix2 k 0)) with (F2R (Float radix2 (k / 2) 1)). 2:{ unfold F2R. cbn [Fnum Fexp]. assert (k = 2 * (k / 2))%Z as R by (destruct (Z.abs_eq_or_opp k) as [Q|Q]; rewrite Q in E; [rewrite E; reflexivity|replace k with (-9007199254740992)%Z by lia; reflexivity]). rewrite R at 2. rewrite mult_IZR. change (bpow radix2 1) with 2. change (bpow radix2 0) with 1. ring. }
      apply generic_format_FLT. exists (Float radix2 (k / 2) 1); auto; cbn [Fnum Fexp]; [|lia]. change (radix2 ^ 53)%Z with 9007199254740992%Z. destruct (Z.abs_eq_or_opp k) as [Q|Q]; rewrite Q in E; [rewrite E; reflexivity|replace k with (-9007199254740992)%Z by lia; reflexivity].
    - apply generic_format_FLT. exists (Float radix2 k 0); auto; cbn [Fnum Fexp]; [change (radix2 ^ 53)%Z with 9007199254740992%Z|]; lia. }
  assert (P : forall x, 0 <= x <= 9007199254740990 -> Ztrunc (rnd x) = Ztrunc x \/ (rnd x = IZR (Ztrunc (rnd x)) /\ x <= rnd x /\ 0 <= rnd x)).
  { intros x [X0 X1]. pose proof (Zfloor_lb x) as L. pose proof (Zfloor_ub x) as U. assert (FU : (Zfloor x <= 9007199254740990)%Z) by (apply le_IZR; lra). assert (FL : (0 <= Zfloor x)%Z) by (apply Zfloor_lub; exact X0).
    assert (A : IZR (Zfloor x) <= rnd x). { rewrite <- (rnd_gen (IZR (Zfloor x))) by (apply G; lia). apply round_le; auto; [apply (fexp_correct 53 1024); exact prec64_gt0|apply valid_rnd_N]. }
    assert (B : rnd x <= IZR (Zfloor x + 1)). { rewrite <- (rnd_gen (IZR (Zfloor x + 1))) by (apply G; lia). apply round_le; [apply (fexp_correct 53 1024); exact prec64_gt0|apply valid_rnd_N|rewrite plus_IZR; lra]. }
    assert (Z0 : 0 <= rnd x) by (apply Rle_trans with (IZR (Zfloor x)); [apply IZR_le; exact FL|exact A]).
    rewrite !Ztrunc_floor by auto. destruct (Rlt_le_dec (rnd x) (IZR (Zfloor x + 1))) as [C|C]; [left; apply Zfloor_imp; auto|right].
    assert (E : rnd x = IZR (Zfloor x + 1)) by lra. rewrite E. rewrite Zfloor_IZR. split; auto. rewrite plus_IZR. split; [lra|]. rewrite <- plus_IZR. apply IZR_le. lia. }
  intros x X. destruct (Rle_lt_dec 0 x) as [S|S].
  - rewrite Rabs_right in * by lra. destruct (P x ltac:(lra)) as [Q|[Q1 [Q2 Q3]]]; auto. right. split; auto. rewrite Rabs_right by lra. auto.
  - rewrite Rabs_left in * by lra. assert (N : rnd x = - rnd (- x)). { unfold rnd. rewrite round_NE_opp. ring. }
    destruct (P (- x) ltac:(lra)) as [Q|[Q1 [Q2 Q3]]]; rewrite N; rewrite Ztrunc_opp.
    + left. rewrite Q, Ztrunc_opp. lia.
    + right. rewrite opp_IZR. split; [f_equal; exact Q1|]. rewrite Rabs_Ropp, Rabs_right; lra.
Qed.

Lemma soup_inT : forall (T : Type) (pts : list (vec3 T)) ts l a b c, s_soup pts ts = Some l -> In (a, b, c) l -> In a pts /\ In b pts /\ In c pts.
Proof.
  induction ts as [|[[i j] k] r IH]; cbn; intros l a b c H I.
  - injection H as <-. destruct I.
  - rewrite !s_nth_nth_error in H. destruct (nth_error pts (N.to_nat i)) eqn:E1; [|discriminate]. destruct (nth_error pts (N.to_nat j)) eqn:E2; [|discriminate].
    destruct (nth_error pts (N.to_nat k)) eqn:E3; [|discriminate]. destruct (s_soup pts r) eqn:E4; [|discriminate]. injection H as <-.
    destruct I as [[= <- <- <-]|I]; [|eauto]. repeat split; eapply nth_error_In; eauto.
Qed.
