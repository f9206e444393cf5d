(** * Point containment on doubles: the crossing test with a margin for rounding *)
From Coq Require Import ZArith NArith List Reals Lra Lia Bool.
From Flocq Require Import Core BinarySingleNaN.
From Verif Require Import Num NumOrd MathTypes Outcome Mesh Box Spec SpecRound P_Tac P_Math P_Mesh P_MeshGeo Props_Mesh P_Round P_Round3 P_OctF P_OctF2 P_RayF P_Ap ShapeQuery SpecQuery SpecInsideF P_Query P_Query2 P_Query3.
Import ListNotations.
Local Open Scope R_scope.
Local Notation fin := (is_finite (prec := 53) (emax := 1024)).

Lemma eps16_F : fin (eps16 : F64) = true /\ 9 / 10 ^ 17 <= B2R (eps16 : F64) <= 11 / 10 ^ 17.
Proof.
  split; [vm_compute; reflexivity|]. rewrite <- (SF2R_B2SF _ _ (eps16 : F64)).
  assert (E : B2SF (eps16 : F64) = SpecFloat.S754_finite false 8112963841460668 (-106)) by (vm_compute; reflexivity). rewrite E. unfold SF2R, F2R. cbn. lra.
Qed.
Lemma eps12_F : fin (eps12 : F64) = true /\ 9 / 10 ^ 13 <= B2R (eps12 : F64) <= 11 / 10 ^ 13.
Proof.
  split; [vm_compute; reflexivity|]. rewrite <- (SF2R_B2SF _ _ (eps12 : F64)).
  assert (E : B2SF (eps12 : F64) = SpecFloat.S754_finite false 4951760157141521 (-92)) by (vm_compute; reflexivity). rewrite E. unfold SF2R, F2R. cbn. lra.
Qed.

(** ** lengths without a lower bound on the size *)
Lemma leb_R : forall x y : F64, fin x = true -> fin y = true -> nleb x y = Rleb (B2R x) (B2R y).
Proof.
  intros x y X Y. cbn [nleb NumF]. rewrite (Bleb_correct 53 1024 x y X Y). unfold Rleb.
  destruct (Rle_dec (B2R x) (B2R y)) as [L|L]; [apply Rle_bool_true; auto|apply Rle_bool_false; lra].
Qed.
Lemma vlength_tiny : forall v : vec3 F64, s_finv v -> s_norm2 (rv v) < bpow radix2 (-900) ->
  fin (vlength v) = true /\ 0 <= B2R (vlength v) <= bpow radix2 (-447).
Proof.
  intros v [FX [FY FZ]] N. unfold s_norm2, s_dot, rv in N. cbn [vx vy vz] in N.
  set (X := B2R (vx v) * B2R (vx v)) in *. set (Y := B2R (vy v) * B2R (vy v)) in *. set (Z := B2R (vz v) * B2R (vz v)) in *.
  assert (X0 : 0 <= X) by (unfold X; nra). assert (Y0 : 0 <= Y) by (unfold Y; nra). assert (Z0 : 0 <= Z) by (unfold Z; nra).
  set (t := bpow radix2 (-900)) in *.
  assert (TB : t * 100 <= big). { apply Rle_trans with (t * bpow radix2 7); [apply Rmult_le_compat_l; [apply bpow_ge_0|cbn; lra]|]. unfold t, big. rewrite <- bpow_plus. apply bpow_le. lia. }
  assert (T0 : 0 < t) by apply bpow_gt_0.
  assert (ET : eta <= t). { apply bpow_le. lia. }
  assert (M : forall a : F64, fin a = true -> 0 <= B2R a * B2R a <= t -> fin (nmul a a) = true /\ 0 <= B2R (nmul a a) <= 3 * t).
  { intros a F [L U]. destruct (mul_R a a F F) as [G E]; [rewrite Rabs_right; lra|]. split; auto. rewrite E. pose proof (rnd_err (B2R a * B2R a)) as R.
    rewrite (Rabs_right (B2R a * B2R a)) in R by lra. apply Rabs_le_inv in R. split; [|unfold uro in R; lra].
    assert (R0 : rnd 0 = 0) by (apply round_0; apply valid_rnd_N). rewrite <- R0. apply rnd_le. exact L. }
  destruct (M _ FX) as [GX [LX UX]]; [fold X; lra|]. destruct (M _ FY) as [GY [LY UY]]; [fold Y; lra|]. destruct (M _ FZ) as [GZ [LZ UZ]]; [fold Z; lra|].
  assert (A : forall a b : F64, fin a = true -> fin b = true -> 0 <= B2R a -> 0 <= B2R b -> B2R a + B2R b <= 20 * t -> fin (nadd a b) = true /\ 0 <= B2R (nadd a b) <= 2 * (B2R a + B2R b)).
  { intros a b F G L L' U. destruct (add_R a b F G) as [H E]; [rewrite Rabs_right; lra|]. split; auto. rewrite E. pose proof (rnd_plus (B2R a) (B2R b) (gen_B2R a) (gen_B2R b)) as R.
    rewrite (Rabs_right (B2R a + B2R b)) in R by lra. apply Rabs_le_inv in R. unfold uro in R. lra. }
  destruct (A _ _ GX GY LX LY) as [G1 [L1 U1]]; [lra|]. destruct (A _ _ G1 GZ L1 LZ) as [G2 [L2 U2]]; [lra|].
  unfold vlength. set (d := nadd (nadd (nmul (vx v) (vx v)) (nmul (vy v) (vy v))) (nmul (vz v) (vz v))) in *. destruct (sqrt_R d G2 L2) as [F E]. split; auto. rewrite E.
  assert (R0 : rnd 0 = 0) by (apply round_0; apply valid_rnd_N). split; [rewrite <- R0; apply rnd_le; apply sqrt_pos|].
  assert (GB : gen (bpow radix2 (-447))) by (apply generic_format_bpow; unfold SpecFloat.fexp, SpecFloat.emin; lia).
  rewrite <- (rnd_gen _ GB). apply rnd_le. replace (bpow radix2 (-447)) with (sqrt (bpow radix2 (-894))).
  - apply sqrt_le_1; [lra|apply bpow_ge_0|]. apply Rle_trans with (32 * t); [lra|]. unfold t. change 32 with (bpow radix2 5).
    rewrite <- bpow_plus. apply bpow_le; lia.
  - change (-894)%Z with (-447 + -447)%Z. rewrite bpow_plus. apply sqrt_square. apply bpow_ge_0.
Qed.
Lemma vlength_any : forall v : vec3 F64, s_finv v -> s_norm2 (rv v) <= bpow radix2 900 ->
  fin (vlength v) = true /\ Rabs (B2R (vlength v) - sqrt (s_norm2 (rv v))) <= 6 * uro * sqrt (s_norm2 (rv v)) + bpow radix2 (-447).
Proof.
  intros v F U. destruct (Rle_lt_dec (bpow radix2 (-900)) (s_norm2 (rv v))) as [L|L].
  - destruct (vlength_b v F) as [G H]; [split; auto|]. split; auto. pose proof (bpow_gt_0 radix2 (-447)). lra.
  - destruct (vlength_tiny v F L) as [G H]. split; auto. pose proof (sqrt_pos (s_norm2 (rv v))) as P.
    assert (S : sqrt (s_norm2 (rv v)) <= bpow radix2 (-447)).
    { replace (bpow radix2 (-447)) with (sqrt (bpow radix2 (-894))).
      - apply sqrt_le_1_alt. apply Rle_trans with (bpow radix2 (-900)); [lra|apply bpow_le; lia].
      - change (-894)%Z with (-447 + -447)%Z. rewrite bpow_plus. apply sqrt_square. apply bpow_ge_0. }
    apply Rabs_le. pose proof uro_pos. nra.
Qed.
(** the length of a vector changes by at most twice the largest change of a component *)
Lemma norm_close : forall (a b : vec3 R) e, s_close e a b -> 0 <= e -> Rabs (sqrt (s_norm2 a) - sqrt (s_norm2 b)) <= 2 * e.
Proof.
  intros a b e [X [Y Z]] E.
  assert (TR : forall u v : vec3 R, sqrt (s_norm2 (V3 (vx u + vx v) (vy u + vy v) (vz u + vz v))) <= sqrt (s_norm2 u) + sqrt (s_norm2 v)).
  { intros u v. assert (PU : 0 <= s_norm2 u) by (unfold s_norm2, s_dot; nra). assert (PV : 0 <= s_norm2 v) by (unfold s_norm2, s_dot; nra).
    pose proof (sqrt_pos (s_norm2 u)) as SU. pose proof (sqrt_pos (s_norm2 v)) as SV.
    assert (UU := sqrt_sqrt _ PU). assert (VV := sqrt_sqrt _ PV).
    assert (C : s_dot u v <= sqrt (s_norm2 u) * sqrt (s_norm2 v)).
    { apply Rle_trans with (Rabs (s_dot u v)); [apply Rle_abs|]. rewrite <- sqrt_Rsqr_abs, <- sqrt_mult by auto. apply sqrt_le_1_alt. unfold Rsqr, s_norm2, s_dot.
      pose proof (Rle_0_sqr (vx u * vy v - vy u * vx v)). pose proof (Rle_0_sqr (vx u * vz v - vz u * vx v)). pose proof (Rle_0_sqr (vy u * vz v - vz u * vy v)). unfold Rsqr in *. nra. }
    apply Rsqr_incr_0_var; [|lra]. rewrite Rsqr_sqrt by (unfold s_norm2, s_dot; cbn [vx vy vz]; pose proof (Rle_0_sqr (vx u + vx v)); pose proof (Rle_0_sqr (vy u + vy v)); pose proof (Rle_0_sqr (vz u + vz v)); unfold Rsqr in *; lra).
    unfold Rsqr. unfold s_norm2, s_dot in *. cbn [vx vy vz]. nra. }
  assert (D : forall u v : vec3 R, s_close e u v -> sqrt (s_norm2 u) <= sqrt (s_norm2 v) + 2 * e).
  { intros u v [A [B C]]. pose proof (TR v (V3 (vx u - vx v) (vy u - vy v) (vz u - vz v))) as T. cbn [vx vy vz] in T.
    replace (V3 (vx v + (vx u - vx v)) (vy v + (vy u - vy v)) (vz v + (vz u - vz v))) with u in T by (destruct u; cbn; f_equal; ring).
    eapply Rle_trans; [exact T|]. apply Rplus_le_compat_l. replace (2 * e) with (sqrt (2 * e * (2 * e))) by (apply sqrt_square; lra). apply sqrt_le_1_alt.
    unfold s_norm2, s_dot. cbn [vx vy vz]. apply Rabs_le_inv in A, B, C. nra. }
  apply Rabs_le. assert (D1 := D a b). assert (D2 := D b a). assert (C1 : s_close e a b) by (repeat split; auto).
  assert (C2 : s_close e b a) by (repeat split; rewrite Rabs_minus_sym; auto). specialize (D1 C1). specialize (D2 C2). lra.
Qed.

Section InF.
  Context (M : R) (ML : bpow radix2 (-100) <= M) (MU : M <= bpow radix2 100).
  Local Notation ap := (ap M).
  Local Notation apv := (apv M).
  Lemma ap_length : forall k B e v V, apv k B e v V -> (k <= 3)%nat -> 0 <= B -> 0 <= e -> B <= 10000 -> e <= 10000 ->
    ap k (2 * B) (2 * e + 12 * B + 2) (vlength v) (sqrt (s_norm2 V)).
  Proof.
    intros k B e v V [X [Y Z]] K B0 E0 B1 E1. assert (K8 : (k <= 8)%nat) by lia. pose proof (Mk_pos M ML k) as P. pose proof uro_pos as U.
    assert (ZX := ap_size _ ML _ _ _ _ _ X ltac:(lra)). assert (ZY := ap_size _ ML _ _ _ _ _ Y ltac:(lra)). assert (ZZ := ap_size _ ML _ _ _ _ _ Z ltac:(lra)).
    destruct X as [FX [SX EX]]. destruct Y as [FY [SY EY]]. destruct Z as [FZ [SZ EZ]].
    assert (NV : sqrt (s_norm2 V) <= 2 * B * M ^ k).
    { replace (2 * B * M ^ k) with (sqrt ((2 * B * M ^ k) * (2 * B * M ^ k))) by (apply sqrt_square; nra). apply sqrt_le_1_alt. set (Q := B * M ^ k) in *. 
      replace (2 * B * M ^ k) with (2 * Q) by (unfold Q; ring). apply Rabs_le_inv in SX, SY, SZ. unfold s_norm2, s_dot. nra. }
    pose proof (sqrt_pos (s_norm2 V)) as N0.
    destruct (vlength_any v) as [F H]; [repeat split; auto| |].
    { pose proof (Mk_up M ML MU k K8) as MK. assert (MK3 : M ^ k <= bpow radix2 300).
      { apply Rle_trans with (bpow radix2 100 ^ k); [apply pow_incr; split; [left; apply (Mpos M ML)|exact MU]|]. rewrite pow_bpow. apply bpow_le. lia. }
      assert (SQ : forall a, Rabs a <= (B + 1 / 1000) * M ^ k -> a * a <= bpow radix2 640).
      { intros a A. assert (A' : Rabs a <= bpow radix2 320).
        { eapply Rle_trans; [exact A|]. apply Rle_trans with (bpow radix2 20 * bpow radix2 300); [|rewrite <- bpow_plus; apply bpow_le; lia].
          apply Rmult_le_compat; [lra|lra|cbn; lra|lra]. }
        change 640%Z with (320 + 320)%Z. rewrite bpow_plus. apply Rabs_le_inv in A'. nra. }
      unfold s_norm2, s_dot, rv. cbn [vx vy vz]. pose proof (SQ _ ZX). pose proof (SQ _ ZY). pose proof (SQ _ ZZ).
      apply Rle_trans with (bpow radix2 2 * bpow radix2 640); [|rewrite <- bpow_plus; apply bpow_le; lia]. change (bpow radix2 2) with 4. pose proof (bpow_gt_0 radix2 640). lra. }
    split; auto. split; [rewrite Rabs_right by lra; exact NV|].
    assert (C := norm_close (rv v) V (e * uro * M ^ k)). assert (C' : Rabs (sqrt (s_norm2 (rv v)) - sqrt (s_norm2 V)) <= 2 * (e * uro * M ^ k)).
    { apply C; [repeat split; assumption|]. apply Rmult_le_pos; nra. }
    clear C. apply Rabs_le_inv in C', H. 
    assert (T : bpow radix2 (-447) <= uro * M ^ k / 1000).
    { apply Rle_trans with (bpow radix2 (-63) * bpow radix2 (-300)); [rewrite <- bpow_plus; apply bpow_le; lia|].
      assert (L : bpow radix2 (-300) <= M ^ k). { apply Rle_trans with (bpow radix2 (-100) ^ k); [rewrite pow_bpow; apply bpow_le; lia|]. apply pow_incr. split; [apply bpow_ge_0|exact ML]. }
      assert (UU : bpow radix2 (-63) <= uro / 1000) by (unfold uro; cbn; lra). pose proof (bpow_gt_0 radix2 (-300)). pose proof (bpow_gt_0 radix2 (-63)).
      apply Rle_trans with (uro / 1000 * M ^ k); [|lra]. apply Rmult_le_compat; lra. }
    set (Q := M ^ k) in *. set (n := sqrt (s_norm2 (rv v))) in *. set (N := sqrt (s_norm2 V)) in *. clearbody n N Q.
    assert (NB : n <= (2 * B + 1 / 1000) * Q). { assert (2 * (e * uro * Q) <= 1 / 1000 * Q) by (assert (e * uro <= 1 / 2000) by (unfold uro; lra); nra). lra. }
    assert (UQ : 0 < uro * Q) by nra.
    assert (R1 : 6 * uro * n <= (12 * B + 1) * (uro * Q)) by (assert (6 * uro * n <= 6 * uro * ((2 * B + 1 / 1000) * Q)) by (apply Rmult_le_compat_l; lra); nra).
    replace ((2 * e + 12 * B + 2) * uro * Q) with ((2 * e + 12 * B + 2) * (uro * Q)) by ring. replace (2 * (e * uro * Q)) with (2 * e * (uro * Q)) in C' by ring.
    apply Rabs_le. nra.
  Qed.

  (** ** orientations and areas of points whose coordinates are at most M *)
  Definition pnt (v : vec3 F64) : Prop := s_finv v /\ s_bound M (rv v).
  Lemma pnt_ap : forall v, pnt v -> apv 1 1 0 v (rv v).
  Proof. intros v [A B]. apply apv_exact; auto. Qed.
  Lemma side_ap : forall p q a b, pnt p -> pnt q -> pnt a -> pnt b ->
    ap 3 24 219 (sideProduct (LS p q) (LS a b)) (s_orient (rv p) (rv q) (rv a) (rv b)).
  Proof.
    intros p q a b P Q A B. apply pnt_ap in P, Q, A, B.
    assert (U1 := apv_sub _ ML MU _ _ _ _ _ _ _ _ _ Q P ltac:(lia) ltac:(lra) ltac:(lra)).
    assert (U2 := apv_sub _ ML MU _ _ _ _ _ _ _ _ _ B A ltac:(lia) ltac:(lra) ltac:(lra)).
    assert (V1 := apv_cross _ ML MU _ _ _ _ _ _ _ _ _ _ P Q ltac:(lia) ltac:(lra) ltac:(lra) ltac:(lra) ltac:(lra) ltac:(lra) ltac:(lra) ltac:(lra)).
    assert (V2 := apv_cross _ ML MU _ _ _ _ _ _ _ _ _ _ A B ltac:(lia) ltac:(lra) ltac:(lra) ltac:(lra) ltac:(lra) ltac:(lra) ltac:(lra) ltac:(lra)).
    assert (D1 := ap_dot _ ML MU _ _ _ _ _ _ _ _ _ _ U1 V2 ltac:(lia) ltac:(lra) ltac:(lra) ltac:(lra) ltac:(lra) ltac:(lra) ltac:(lra) ltac:(lra)).
    assert (D2 := ap_dot _ ML MU _ _ _ _ _ _ _ _ _ _ U2 V1 ltac:(lia) ltac:(lra) ltac:(lra) ltac:(lra) ltac:(lra) ltac:(lra) ltac:(lra) ltac:(lra)).
    assert (S := ap_add _ ML MU _ _ _ _ _ _ _ _ _ D1 D2 ltac:(lia) ltac:(lra) ltac:(lra)).
    rewrite <- sp_orient. eapply (ap_weaken _ ML); [exact S|lra|lra].
  Qed.
  Lemma half_ap : ap 0 (1 / 2) 0 (nlit 5 10) (1 / 2).
  Proof.
    destruct (ofZ_R 5 ltac:(lia)) as [A B]. destruct (ofZ_R 10 ltac:(lia)) as [C D]. unfold nlit.
    destruct (div_R (nofZ 5) (nofZ 10) A) as [E F]; [rewrite D; lra|rewrite B, D; rewrite Rabs_right by lra; unfold big; apply Rle_trans with (bpow radix2 0); [cbn; lra|apply bpow_le; lia]|].
    split; auto. rewrite F, B, D. assert (H : rnd (5 / 10) = 1 / 2).
    { replace (5 / 10) with (bpow radix2 (-1)) by (cbn; lra). rewrite rnd_gen; [cbn; lra|]. apply generic_format_bpow. unfold SpecFloat.fexp, SpecFloat.emin. lia. }
    rewrite H. split; [rewrite Rabs_right; cbn; lra|]. replace (1 / 2 - 1 / 2) with 0 by ring. rewrite Rabs_R0. lra.
  Qed.
  Lemma area_ap : forall a b c, pnt a -> pnt b -> pnt c -> ap 2 8 101 (triangleArea a b c) (s_area (rv a) (rv b) (rv c)).
  Proof.
    intros a b c A B C. apply pnt_ap in A, B, C.
    assert (U1 := apv_sub _ ML MU _ _ _ _ _ _ _ _ _ A B ltac:(lia) ltac:(lra) ltac:(lra)).
    assert (U2 := apv_sub _ ML MU _ _ _ _ _ _ _ _ _ A C ltac:(lia) ltac:(lra) ltac:(lra)).
    assert (V := apv_cross _ ML MU _ _ _ _ _ _ _ _ _ _ U1 U2 ltac:(lia) ltac:(lra) ltac:(lra) ltac:(lra) ltac:(lra) ltac:(lra) ltac:(lra) ltac:(lra)).
    assert (L := ap_length _ _ _ _ _ V ltac:(lia) ltac:(lra) ltac:(lra) ltac:(lra) ltac:(lra)).
    assert (H := ap_mul _ ML MU 0 2 _ _ _ _ _ _ _ _ half_ap L ltac:(lia) ltac:(lra) ltac:(lra) ltac:(lra) ltac:(lra) ltac:(lra) ltac:(lra) ltac:(lra)).
    rewrite <- area_spec. unfold triangleArea at 2.
    assert (E : nlit 5 10 = 1 / 2 :> R) by (unfold nlit; unR; lra). rewrite E.
    eapply (ap_weaken _ ML); [exact H|lra|lra].
  Qed.

  (** ** one triangle, the whole loop *)
  (** general position with a margin *)
  Definition wide (p q : vec3 R) (t : triple) : Prop :=
    let '(a, b, c) := t in
    2 / 10 ^ 16 + 219 * uro * M ^ 3 <= Rabs (s_orient p q a b) /\ 2 / 10 ^ 16 + 219 * uro * M ^ 3 <= Rabs (s_orient p q b c) /\
    2 / 10 ^ 16 + 219 * uro * M ^ 3 <= Rabs (s_orient p q c a) /\
    2 / 10 ^ 16 + 11089 * uro * M ^ 6 <= Rabs (s_height a b c p * s_height a b c q) /\
    2 / 10 ^ 12 + 479 * uro * M ^ 2 <= Rabs (s_area p b c + s_area p c a + s_area p a b - s_area a b c).
  Lemma sign_F : forall (x : F64) X d, fin x = true -> Rabs (B2R x - X) <= d -> 2 / 10 ^ 16 + d <= Rabs X ->
    (0 < X /\ nleb (nopp eps16) x = true /\ nltb eps16 x = true /\ nleb x eps16 = false /\ nltb x (nopp eps16) = false) \/
    (X < 0 /\ nleb (nopp eps16) x = false /\ nltb eps16 x = false /\ nleb x eps16 = true /\ nltb x (nopp eps16) = true).
  Proof.
    intros x X d F E L. destruct eps16_F as [G [E1 E2]]. destruct (opp_R _ G) as [GO EO].
    rewrite !leb_R, !ltb_R by auto. rewrite EO. set (e := B2R (eps16 : F64)) in *. clearbody e. clear EO GO G.
    apply Rabs_le_inv in E. assert (0 <= d) by lra.
    rewrite !Rleb_true, !Rltb_true, !Rleb_false, !Rltb_false. unfold Rabs in L. destruct (Rcase_abs X); [right|left]; lra.
  Qed.
  (** the four comparisons of an orientation whose sign is [b] *)
  Definition side_is {T} {N : Num T} (x : T) (b : bool) : Prop :=
    nleb (nopp eps16) x = b /\ nltb eps16 x = b /\ nleb x eps16 = negb b /\ nltb x (nopp eps16) = negb b.
  Lemma sign_side : forall (x : F64) X d, fin x = true -> Rabs (B2R x - X) <= d -> 2 / 10 ^ 16 + d <= Rabs X ->
    exists b, side_is x b /\ (if b then 0 < X else X < 0).
  Proof.
    intros x X d F E L. destruct (sign_F x X d F E L) as [[A [B1 [B2 [B3 B4]]]]|[A [B1 [B2 [B3 B4]]]]]; [exists true|exists false]; (split; [|exact A]); repeat split; assumption.
  Qed.
  (** the path through the loop body when no comparison is near a tie; over any number type, so that the kernel never computes on doubles *)
  Lemma tri_flow : forall {T} {N : Num T} pts (p q : vec3 T) t h v1 v2 v3 b1 b2 b3 b4,
    point_at pts (ti1 t) = Some v1 -> point_at pts (ti2 t) = Some v2 -> point_at pts (ti3 t) = Some v3 ->
    side_is (sideProduct (LS p q) (LS v1 v2)) b1 -> side_is (sideProduct (LS p q) (LS v2 v3)) b2 -> side_is (sideProduct (LS p q) (LS v3 v1)) b3 ->
    nleb (nopp eps16) (nmul (sideProduct (LS q v1) (LS v2 v3)) (sideProduct (LS v1 p) (LS v2 v3))) = b4 ->
    nltb (nabs (nsub (nadd (nadd (triangleArea v2 p v3) (triangleArea p v1 v3)) (triangleArea p v1 v2)) (triangleArea v1 v2 v3))) eps12 = false ->
    contains_tri pts p q t h =
      Ret (Some (Hits (h_count h + (if b4 then (b2z (b1 && b2 && b3) - b2z (negb b1 && negb b2 && negb b3))%Z else 0%Z)) (h_edge h) (h_vert h))).
  Proof.
    intros T N pts p q t h v1 v2 v3 b1 b2 b3 b4 P1 P2 P3 [A1 [A2 [A3 A4]]] [B1 [B2 [B3 B4]]] [C1 [C2 [C3 C4]]] D AR.
    unfold contains_tri. rewrite P1, P2, P3. cbn [or_ub obind]. cbv zeta. rewrite A1, A2, A3, A4, B1, B2, B3, B4, C1, C2, C3, C4, D, AR. clear.
    assert (HH : Hits (h_count h + 0) (h_edge h) (h_vert h) = h) by (rewrite Z.add_0_r; destruct h; reflexivity).
    destruct b1, b2, b3, b4; cbn [andb negb orb Nat.ltb Nat.leb Nat.eqb cnt3 b2n b2z Nat.add Z.sub Z.add Z.opp Pos.succ]; rewrite ?HH; reflexivity.
  Qed.
  Lemma plane_ap : forall (p q v1 v2 v3 : vec3 F64), pnt p -> pnt q -> pnt v1 -> pnt v2 -> pnt v3 ->
    ap 6 576 11089 (nmul (sideProduct (LS q v1) (LS v2 v3)) (sideProduct (LS v1 p) (LS v2 v3)))
      (- s_height (rv v1) (rv v2) (rv v3) (rv q) * s_height (rv v1) (rv v2) (rv v3) (rv p)).
  Proof.
    intros p q v1 v2 v3 NP NQ N1 N2 N3.
    assert (A4 := side_ap q v1 v2 v3 NQ N1 N2 N3). assert (A5 := side_ap v1 p v2 v3 N1 NP N2 N3).
    rewrite orient_plane1 in A4. rewrite orient_plane2 in A5.
    assert (A6 := ap_mul _ ML MU 3 3 _ _ _ _ _ _ _ _ A4 A5 ltac:(lia) ltac:(lra) ltac:(lra) ltac:(lra) ltac:(lra) ltac:(lra) ltac:(lra) ltac:(lra)).
    eapply (ap_weaken _ ML); [exact A6|lra|lra].
  Qed.
  Lemma gap_ap : forall (p v1 v2 v3 : vec3 F64), pnt p -> pnt v1 -> pnt v2 -> pnt v3 ->
    ap 2 32 479 (nsub (nadd (nadd (triangleArea v2 p v3) (triangleArea p v1 v3)) (triangleArea p v1 v2)) (triangleArea v1 v2 v3))
      (s_area (rv p) (rv v2) (rv v3) + s_area (rv p) (rv v3) (rv v1) + s_area (rv p) (rv v1) (rv v2) - s_area (rv v1) (rv v2) (rv v3)).
  Proof.
    intros p v1 v2 v3 NP N1 N2 N3.
    assert (B1 := area_ap v1 v2 v3 N1 N2 N3). assert (B2 := area_ap v2 p v3 N2 NP N3). assert (B3 := area_ap p v1 v3 NP N1 N3). assert (B4 := area_ap p v1 v2 NP N1 N2).
    rewrite (area_swap (rv v2) (rv p) (rv v3)) in B2. rewrite (area_swap (rv p) (rv v1) (rv v3)), <- (area_rot (rv p) (rv v3) (rv v1)) in B3 || rewrite (area_swap (rv p) (rv v1) (rv v3)), (area_rot _ _ _) in B3.
    assert (C1 := ap_add _ ML MU _ _ _ _ _ _ _ _ _ B2 B3 ltac:(lia) ltac:(lra) ltac:(lra)). assert (C2 := ap_add _ ML MU _ _ _ _ _ _ _ _ _ C1 B4 ltac:(lia) ltac:(lra) ltac:(lra)).
    assert (C3 := ap_sub _ ML MU _ _ _ _ _ _ _ _ _ C2 B1 ltac:(lia) ltac:(lra) ltac:(lra)).
    eapply (ap_weaken _ ML); [exact C3|lra|lra].
  Qed.
  Lemma far_F : forall (x : F64) X d, fin x = true -> Rabs (B2R x - X) <= d -> 2 / 10 ^ 12 + d <= Rabs X -> nltb (nabs x) eps12 = false.
  Proof.
    intros x X d F E L. destruct eps12_F as [G [L1 L2]]. destruct (abs_R _ F) as [FA EA]. rewrite ltb_R by auto. rewrite EA. apply Rltb_false.
    set (e := B2R (eps12 : F64)) in *. set (y := B2R x) in *. clearbody e y. clear - E L L2.
    assert (Rabs X <= Rabs y + Rabs (y - X)) by (replace X with (y + - (y - X)) at 1 by ring; eapply Rle_trans; [apply Rabs_triang|rewrite Rabs_Ropp; lra]). lra.
  Qed.
  Lemma tri_F : forall pts (p q : vec3 F64) t h v1 v2 v3,
    point_at pts (ti1 t) = Some v1 -> point_at pts (ti2 t) = Some v2 -> point_at pts (ti3 t) = Some v3 ->
    pnt p -> pnt q -> pnt v1 -> pnt v2 -> pnt v3 -> wide (rv p) (rv q) (rv v1, rv v2, rv v3) ->
    exists z, s_crossing (rv p) (rv q) (rv v1, rv v2, rv v3) z /\ contains_tri pts p q t h = Ret (Some (Hits (h_count h + z) (h_edge h) (h_vert h))).
  Proof.
    intros pts p q t h v1 v2 v3 P1 P2 P3 NP NQ N1 N2 N3 [G1 [G2 [G3 [G4 G5]]]]. 
    destruct (side_ap p q v1 v2 NP NQ N1 N2) as [FS1 [_ ES1]]. destruct (side_ap p q v2 v3 NP NQ N2 N3) as [FS2 [_ ES2]]. destruct (side_ap p q v3 v1 NP NQ N3 N1) as [FS3 [_ ES3]].
    destruct (plane_ap p q v1 v2 v3 NP NQ N1 N2 N3) as [F6 [_ E6]]. destruct (gap_ap p v1 v2 v3 NP N1 N2 N3) as [F7 [_ E7]].
    pose proof (far_F _ _ _ F7 E7 G5) as AR.
    clear E7 F7 G5.
    pose proof (meets_iff (rv p) (rv q) (rv v1) (rv v2) (rv v3)) as MI. pose proof (orient_sum (rv p) (rv q) (rv v1) (rv v2) (rv v3)) as SUM.
    assert (G4' : 2 / 10 ^ 16 + 11089 * uro * M ^ 6 <= Rabs (- s_height (rv v1) (rv v2) (rv v3) (rv q) * s_height (rv v1) (rv v2) (rv v3) (rv p))).
    { replace (- s_height (rv v1) (rv v2) (rv v3) (rv q) * s_height (rv v1) (rv v2) (rv v3) (rv p)) with
        (- (s_height (rv v1) (rv v2) (rv v3) (rv p) * s_height (rv v1) (rv v2) (rv v3) (rv q))) by ring. rewrite Rabs_Ropp. exact G4. }
    destruct (sign_side _ _ _ FS1 ES1 G1) as [b1 [W1 A1]]. destruct (sign_side _ _ _ FS2 ES2 G2) as [b2 [W2 A2]]. destruct (sign_side _ _ _ FS3 ES3 G3) as [b3 [W3 A3]].
    destruct (sign_side _ _ _ F6 E6 G4') as [b4 [[W4 _] A4]].
    rewrite (tri_flow pts p q t h v1 v2 v3 b1 b2 b3 b4 P1 P2 P3 W1 W2 W3 W4 AR).
    exists (if b4 then (b2z (b1 && b2 && b3) - b2z (negb b1 && negb b2 && negb b3))%Z else 0%Z). split; [|reflexivity].
    unfold s_crossing. clear - MI SUM A1 A2 A3 A4.
    set (hp := s_height (rv v1) (rv v2) (rv v3) (rv p)) in *. set (hq := s_height (rv v1) (rv v2) (rv v3) (rv q)) in *.
    set (mt := s_meets (rv p) (rv q) (rv v1) (rv v2) (rv v3)) in *.
    set (s1 := s_orient (rv p) (rv q) (rv v1) (rv v2)) in *. set (s2 := s_orient (rv p) (rv q) (rv v2) (rv v3)) in *. set (s3 := s_orient (rv p) (rv q) (rv v3) (rv v1)) in *.
    clearbody s1 s2 s3 hp hq mt.
    destruct b1, b2, b3;
    (assert (Z1 : s1 <> 0) by lra; assert (Z2 : s2 <> 0) by lra; assert (Z3 : s3 <> 0) by lra; specialize (MI Z1 Z2 Z3)); cbn [andb negb b2z Z.sub Z.add Z.opp];
    try (replace (if b4 then 0%Z else 0%Z) with 0%Z by (destruct b4; reflexivity); right; right; split; [|reflexivity]; rewrite MI; intros [[?|?] ?]; lra).
    - destruct b4.
      + left; repeat split; [apply MI; split; [left|]; lra|lra].
      + right; right; split; [|reflexivity]; rewrite MI; intros [_ ?]; lra.
    - destruct b4.
      + right; left; repeat split; [apply MI; split; [right|]; lra|lra].
      + right; right; split; [|reflexivity]; rewrite MI; intros [_ ?]; lra.
  Qed.
  Lemma loop_F : forall pts (p q : vec3 F64) ts l h, s_soup (map rv pts) (map idx ts) = Some l -> (forall v, In v pts -> pnt v) -> pnt p -> pnt q ->
    (forall t, In t l -> wide (rv p) (rv q) t) ->
    exists zs, Forall2 (s_crossing (rv p) (rv q)) l zs /\ contains_loop pts p q ts h = Ret (Z.eqb (h_count h + s_zsum zs) 1).
  Proof.
    intros pts p q. induction ts as [|t ts IH]; intros l h S PP NP NQ G.
    - injection S as <-. exists []. split; [constructor|]. cbn [contains_loop s_zsum fold_right]. f_equal.
      destruct (Z.ltb_spec (h_count h) 0), (Z.ltb_spec 1 (h_count h)), (Z.ltb_spec 0 (h_count h)), (Z.eqb_spec (h_count h + 0) 1); cbn; try reflexivity; lia.
    - change (map idx (t :: ts)) with ((ti1 t, ti2 t, ti3 t) :: map idx ts) in S. cbn [s_soup] in S.
      destruct (s_nth (map rv pts) (N.to_nat (ti1 t))) as [a|] eqn:E1; [|discriminate]. destruct (s_nth (map rv pts) (N.to_nat (ti2 t))) as [b|] eqn:E2; [|discriminate].
      destruct (s_nth (map rv pts) (N.to_nat (ti3 t))) as [c|] eqn:E3; [|discriminate]. destruct (s_soup (map rv pts) (map idx ts)) as [r|] eqn:E4; [|discriminate]. injection S as <-.
      rewrite s_nth_nth_error in E1, E2, E3.
      assert (IV : forall i x, nth_error (map rv pts) i = Some x -> exists v, nth_error pts i = Some v /\ x = rv v).
      { intros i x H. rewrite nth_error_map in H. destruct (nth_error pts i) as [v|]; [|discriminate]. injection H as <-. eauto. }
      destruct (IV _ _ E1) as [v1 [P1 ->]]. destruct (IV _ _ E2) as [v2 [P2 ->]]. destruct (IV _ _ E3) as [v3 [P3 ->]].
      destruct (tri_F pts p q t h v1 v2 v3 P1 P2 P3 NP NQ (PP _ (nth_error_In _ _ P1)) (PP _ (nth_error_In _ _ P2)) (PP _ (nth_error_In _ _ P3)) (G _ (or_introl eq_refl))) as [z [Z R]].
      destruct (IH r (Hits (h_count h + z) (h_edge h) (h_vert h)) eq_refl) as [zs [F L]]; auto; [intros; apply G; right; auto|].
      exists (z :: zs). split; [constructor; auto|]. cbn [contains_loop]. rewrite R. cbn [obind]. rewrite L. cbn [h_count s_zsum fold_right]. f_equal. f_equal. unfold s_zsum. lia.
  Qed.

  (** ** the radii *)
  Lemma len2_ap : forall v, pnt v -> ap 2 3 16 (vlength2 v) (s_norm2 (rv v)).
  Proof.
    intros v P. apply pnt_ap in P. assert (D := ap_dot _ ML MU _ _ _ _ _ _ _ _ _ _ P P ltac:(lia) ltac:(lra) ltac:(lra) ltac:(lra) ltac:(lra) ltac:(lra) ltac:(lra) ltac:(lra)).
    change (vlength2 v) with (vdot v v). change (s_norm2 (rv v)) with (s_dot (rv v) (rv v)). eapply (ap_weaken _ ML); [exact D|lra|lra].
  Qed.
  Lemma fold_max : forall (pts : list (vec3 F64)) (c : F64) K d, (forall v : vec3 F64, In v pts -> fin (vlength2 v : F64) = true /\ B2R (vlength2 v : F64) <= K + d) -> fin c = true ->
    let r : F64 := fold_left (fun (c : F64) (p : vec3 F64) => nmax c (vlength2 p)) pts c in
    fin r = true /\ B2R c <= B2R r /\ (forall v : vec3 F64, In v pts -> B2R (vlength2 v : F64) <= B2R r) /\ (B2R r <= B2R c \/ B2R r <= K + d).
  Proof.
    intros pts. induction pts as [|v pts IH]; intros c K d H F; cbn [fold_left].
    - cbv zeta. split; auto. split; [lra|]. split; [intros v []|left; lra].
    - destruct (H v (or_introl eq_refl)) as [FV LV]. destruct (max_R c (vlength2 v) F FV) as [FM EM].
      destruct (IH (nmax c (vlength2 v)) K d) as [A [B [C D]]]; [intros w I; apply H; right; auto|auto|]. cbv zeta. rewrite EM in B, D.
      pose proof (Rmax_l (B2R c) (B2R (vlength2 v))) as M1. pose proof (Rmax_r (B2R c) (B2R (vlength2 v))) as M2.
      split; [exact A|]. split; [exact (Rle_trans _ _ _ M1 B)|]. split; [intros w [<-|I]; [exact (Rle_trans _ _ _ M2 B)|exact (C w I)]|]. destruct D as [D|D]; [|right; exact D].
      revert D. unfold Rmax. destruct (Rle_dec _ _); intro D; [right; exact (Rle_trans _ _ _ D LV)|left; exact D].
  Qed.
End InF.
Lemma lit11_F : fin (nlit 11 10 : F64) = true /\ Rabs (B2R (nlit 11 10 : F64) - 11 / 10) <= uro.
Proof.
  split; [vm_compute; reflexivity|]. rewrite <- (SF2R_B2SF _ _ (nlit 11 10 : F64)).
  assert (E : B2SF (nlit 11 10 : F64) = SpecFloat.S754_finite false 4953959590107546 (-52)) by (vm_compute; reflexivity). rewrite E. unfold SF2R, F2R, uro. cbn. apply Rabs_le. lra.
Qed.
Lemma sqrt_close : forall c r k, 0 < r -> 0 <= k <= 1 / 100 -> Rabs (c - r * r) <= k * (r * r) -> Rabs (sqrt c - r) <= k * r.
Proof.
  intros c r k R K H. apply Rabs_le_inv in H. assert (RR : 0 < r * r) by nra. assert (C : 0 < c) by nra. pose proof (sqrt_lt_R0 _ C) as S. assert (SS : sqrt c * sqrt c = c) by (apply sqrt_sqrt; lra).
  set (s := sqrt c) in *. clearbody s. rewrite <- SS in H. clear SS C. apply Rabs_le. split.
  - apply Rnot_lt_le. intro L. assert (L' : s < (1 - k) * r) by lra. assert (s * s < ((1 - k) * r) * ((1 - k) * r)) by (apply Rmult_le_0_lt_compat; lra). nra.
  - apply Rnot_lt_le. intro L. assert (L' : (1 + k) * r < s) by lra. assert (((1 + k) * r) * ((1 + k) * r) < s * s) by (apply Rmult_le_0_lt_compat; nra). nra.
Qed.
(** the radii of a mesh of doubles *)
Lemma radius_F : forall pts rad, bpow radix2 (-100) <= rad <= bpow radix2 99 -> (forall v, In v pts -> s_finv v) -> s_max_radius (map rv pts) rad ->
  let c : F64 := fold_left (fun (c : F64) (p : vec3 F64) => nmax c (vlength2 p)) pts (n0 : F64) in
  fin c = true /\ Rabs (B2R c - rad * rad) <= 16 * uro * (rad * rad) /\
  fin (nsqrt c) = true /\ Rabs (B2R (nsqrt c) - rad) <= 18 * uro * rad /\
  fin (nmul (nlit 11 10) (nsqrt c)) = true /\ Rabs (B2R (nmul (nlit 11 10) (nsqrt c)) - 11 / 10 * rad) <= 24 * uro * rad.
Proof.
  intros pts rad [L U] FP [R0 [RB RM]]. assert (RP : 0 < rad) by (pose proof (bpow_gt_0 radix2 (-100)); lra).
  assert (MU : rad <= bpow radix2 100) by (eapply Rle_trans; [exact U|apply bpow_le; lia]).
  assert (CB : forall (v : vec3 R), s_norm v <= rad -> s_norm2 v <= rad * rad /\ s_bound rad v).
  { intros v H. assert (N : s_norm2 v <= rad * rad). { unfold s_norm in H. assert (P : 0 <= s_norm2 v) by (unfold s_norm2, s_dot; nra). rewrite <- (sqrt_sqrt _ P). apply Rmult_le_compat; auto using sqrt_pos. }
    split; auto. unfold s_norm2, s_dot in N. repeat split; apply Rabs_le; split; nra. }
  assert (PN : forall v, In v pts -> pnt rad v) by (intros v I; split; [auto|apply CB; apply RB; apply in_map; auto]).
  assert (LE : forall v : vec3 F64, In v pts -> fin (vlength2 v : F64) = true /\ Rabs (B2R (vlength2 v : F64) - s_norm2 (rv v)) <= 16 * uro * (rad * rad)).
  { intros v I. destruct (len2_ap rad L MU v (PN v I)) as [F [_ E]]. split; auto. replace (rad * rad) with (rad ^ 2) by ring. exact E. }
  destruct (fold_max pts n0 (rad * rad) (16 * uro * (rad * rad))) as [F [GE [G D]]].
  { intros v I. destruct (LE v I) as [F E]. split; auto. apply Rabs_le_inv in E. destruct (CB (rv v)) as [N _]; [apply RB; apply in_map; auto|]. lra. }
  { reflexivity. }
  cbv zeta. set (c := fold_left _ pts n0) in *. split; auto.
  assert (Z0 : B2R (n0 : F64) = 0) by (destruct (ofZ_R 0 ltac:(lia)) as [_ E]; exact E). rewrite Z0 in *.
  assert (RR : 0 < rad * rad) by nra. assert (UP := uro_pos).
  assert (C : Rabs (B2R c - rad * rad) <= 16 * uro * (rad * rad)).
  { assert (UPP : B2R c <= rad * rad + 16 * uro * (rad * rad)) by (destruct D; nra). apply Rabs_le. split; [|lra].
    destruct RM as [[_ E]|[w [I E]]]; [lra|]. apply in_map_iff in I. destruct I as [v [<- I]]. specialize (G v I). destruct (LE v I) as [_ X]. apply Rabs_le_inv in X.
    assert (N : s_norm2 (rv v) = rad * rad) by (unfold s_norm in E; rewrite <- E; symmetry; apply sqrt_sqrt; unfold s_norm2, s_dot; nra). lra. }
  split; auto. assert (S := sqrt_close (B2R c) rad (16 * uro) RP ltac:(unfold uro; lra) C).
  assert (C0 : 0 <= B2R c) by (apply Rabs_le_inv in C; unfold uro in *; lra).
  destruct (sqrt_R c F C0) as [FS ES]. split; auto. rewrite ES.
  assert (EM := eta_Mk rad L 1 ltac:(lia)). rewrite pow_1 in EM.
  assert (SR : Rabs (rnd (sqrt (B2R c)) - rad) <= 18 * uro * rad).
  { pose proof (rnd_err (sqrt (B2R c))) as E. apply Rabs_le_inv in S. rewrite (Rabs_right (sqrt (B2R c))) in E by (apply Rle_ge, sqrt_pos). apply Rabs_le_inv in E. apply Rabs_le. unfold uro in *. lra. }
  split; auto. rewrite <- ES in SR. set (r := nsqrt c) in *. clearbody r. clear S ES C C0 D G GE LE F c.
  destruct lit11_F as [F1 E1]. apply Rabs_le_inv in SR, E1. set (o := B2R (nlit 11 10 : F64)) in *.
  assert (OP : Rabs (o * B2R r - 11 / 10 * rad) <= (21 + 1 / 2) * uro * rad).
  { replace (o * B2R r - 11 / 10 * rad) with (o * (B2R r - rad) + (o - 11 / 10) * rad) by ring.
    assert (A : Rabs (o * (B2R r - rad)) <= (11 / 10 + uro) * (18 * uro * rad)) by (apply Rabs_mult_le; apply Rabs_le; unfold uro in *; lra).
    assert (B : Rabs ((o - 11 / 10) * rad) <= uro * rad) by (apply Rabs_mult_le; apply Rabs_le; unfold uro in *; lra).
    eapply Rle_trans; [apply Rabs_plus_le; [exact A|exact B]|]. unfold uro. nra. }
  apply Rabs_le_inv in OP.
  destruct (mul_R (nlit 11 10) r F1 FS) as [FM EQ].
  { fold o. apply Rle_trans with (2 * rad ^ 1); [rewrite pow_1; apply Rabs_le; unfold uro in *; lra|]. apply (Mk_big rad L MU); [lia|lra]. }
  split; auto. rewrite EQ. fold o. pose proof (rnd_err (o * B2R r)) as E.
  assert (AB : Rabs (o * B2R r) <= 12 / 10 * rad) by (apply Rabs_le; unfold uro in *; lra). apply Rabs_le_inv in E. apply uro_le in AB. apply Rabs_le. unfold uro in *. lra.
Qed.
