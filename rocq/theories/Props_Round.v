(** * C85, C86: rounding errors of transforms and rotations in double precision *)
From Coq Require Import ZArith Bool Lia Reals Lra.
From Flocq Require Import Core BinarySingleNaN.
From Verif Require Import Num Outcome MathTypes Spec SpecRound P_Round P_Round2 P_Round3.
Local Open Scope R_scope.

(** ** C85: transforms *)
(** applying a transform: the image is within 13 u A M + u N + 7 eta of the exact one, whatever the signs and cancellations *)
Theorem C85_apply : forall (t : trans3 F64) (p : vec3 F64) A M N, s_finm (tR t) -> s_finv (MathTypes.tt t) -> s_finv p ->
  s_boundm A (rm (tR t)) -> s_bound M (rv p) -> s_bound N (rv (MathTypes.tt t)) -> A * M <= big / 8 -> N <= big / 8 ->
  s_finv (tapply t p) /\ s_close (13 * uro * (A * M) + uro * N + 7 * eta) (rv (tapply t p)) (s_moved (rm (tR t)) (rv (MathTypes.tt t)) (rv p)).
Proof. exact apply_b. Qed.
(** composing two transforms *)
Theorem C85_compose : forall (a b : trans3 F64) A B M N, s_finm (tR a) -> s_finv (MathTypes.tt a) -> s_finm (tR b) -> s_finv (MathTypes.tt b) ->
  s_boundm A (rm (tR a)) -> s_boundm B (rm (tR b)) -> s_bound N (rv (MathTypes.tt a)) -> s_bound M (rv (MathTypes.tt b)) ->
  A * B <= big / 8 -> A * M <= big / 8 -> N <= big / 8 ->
  s_finm (tR (tmul a b)) /\ s_finv (MathTypes.tt (tmul a b)) /\
  s_closem (9 * uro * (A * B) + 6 * eta) (rm (tR (tmul a b))) (s_mprod (rm (tR a)) (rm (tR b))) /\
  s_close (13 * uro * (A * M) + uro * N + 7 * eta) (rv (MathTypes.tt (tmul a b))) (s_moved (rm (tR a)) (rv (MathTypes.tt a)) (rv (MathTypes.tt b))).
Proof.
  intros a b A B M N FA GA FB GB BA BB NA NB H1 H2 H3.
  destruct (mprod_b (tR a) (tR b) A B FA FB BA BB H1) as [F1 C1]. destruct (apply_b a (MathTypes.tt b) A M N FA GA GB BA NB NA H2 H3) as [F2 C2]. auto.
Qed.
(** inverting a transform: the rotation part is the transposed matrix exactly, the translation is close to - m^T t *)
Theorem C85_inverse : forall (t : trans3 F64) A N, s_finm (tR t) -> s_finv (MathTypes.tt t) ->
  s_boundm A (rm (tR t)) -> s_bound N (rv (MathTypes.tt t)) -> A * N <= big / 8 ->
  (let m := rm (tR t) in rm (tR (tinverse t)) = M3 (mxx m) (myx m) (mzx m) (mxy m) (myy m) (mzy m) (mxz m) (myz m) (mzz m)) /\
  s_finv (MathTypes.tt (tinverse t)) /\
  s_close (9 * uro * (A * N) + 6 * eta) (rv (MathTypes.tt (tinverse t)))
    (let m := rm (tR t) in let v := rv (MathTypes.tt t) in V3 (- s_dot (col1 m) v) (- s_dot (col2 m) v) (- s_dot (col3 m) v)).
Proof. intros t A N F G B C H. destruct (inverse_b t A N F G B C H) as [E [P Q]]. split; [rewrite E; reflexivity|auto]. Qed.
(** transforming there and back returns the point up to rounding, for every nearly orthonormal matrix *)
Theorem C85_round_trip : forall (t : trans3 F64) (p : vec3 F64) d M N, s_finm (tR t) -> s_finv (MathTypes.tt t) -> s_finv p ->
  s_ortho d (rm (tR t)) -> d <= 1 / 1000 -> s_bound M (rv p) -> s_bound N (rv (MathTypes.tt t)) -> M <= big / 1024 -> N <= big / 1024 ->
  s_finv (tapply (tinverse t) (tapply t p)) /\
  s_close (3 * (d * M) + 80 * uro * (M + N) + 40 * eta) (rv (tapply (tinverse t) (tapply t p))) (rv p).
Proof. exact round_trip. Qed.

(** ** C86: quaternions *)
(** every finite quaternion of sane length, normalized or not: the matrix is within 64 u of the rotation v |-> q v q^-1 *)
Theorem C86_matrix : forall q : quat F64, s_finq q -> s_range q ->
  s_finm (m3setRotation q) /\ s_closem (64 * uro) (rm (m3setRotation q)) (s_qmat (rq q)).
Proof. exact setRotation_b. Qed.
(** ... hence orthonormal up to 448 u *)
Theorem C86_orthonormal : forall q : quat F64, s_finq q -> s_range q -> s_ortho (448 * uro) (rm (m3setRotation q)).
Proof. exact setRotation_ortho. Qed.
(** ... hence a pose given by a quaternion and an origin can be inverted up to 1500 u (M + N) *)
Theorem C86_round_trip : forall (q : quat F64) (o p : vec3 F64) M N, s_finq q -> s_range q -> s_finv o -> s_finv p -> s_bound M (rv p) -> s_bound N (rv o) ->
  M <= big / 1024 -> N <= big / 1024 ->
  let t := T3 (m3setRotation q) o in
  s_finv (tapply (tinverse t) (tapply t p)) /\ s_close (1500 * uro * (M + N) + 40 * eta) (rv (tapply (tinverse t) (tapply t p))) (rv p).
Proof. exact quat_round_trip. Qed.
(** lengths and normalized vectors *)
Theorem C86_length : forall v : vec3 F64, s_finv v -> s_rangev v ->
  s_fin (vlength v) /\ Rabs (B2R (vlength v) - sqrt (s_norm2 (rv v))) <= 6 * uro * sqrt (s_norm2 (rv v)).
Proof. exact vlength_b. Qed.
Theorem C86_normalized : forall v : vec3 F64, s_finv v -> s_rangev v ->
  s_finv (vnormalized v) /\ s_close (8 * uro) (rv (vnormalized v)) (s_unit (rv v)).
Proof. exact normalized_b. Qed.
(** quaternions: the length up to 6 u, and each component of normalized() within 8 u of the exact unit quaternion *)
Theorem C86_quaternion_normalized : forall q : quat F64, s_finq q -> s_range q ->
  let n := sqrt (q_norm2 (rq q)) in
  s_fin (qlength q) /\ Rabs (B2R (qlength q) - n) <= 6 * uro * n /\
  s_finq (qnormalized q) /\
  Rabs (B2R (qx (qnormalized q)) - B2R (qx q) / n) <= 8 * uro /\ Rabs (B2R (qy (qnormalized q)) - B2R (qy q) / n) <= 8 * uro /\
  Rabs (B2R (qz (qnormalized q)) - B2R (qz q) / n) <= 8 * uro /\ Rabs (B2R (qw (qnormalized q)) - B2R (qw q) / n) <= 8 * uro.
Proof.
  intros q FQ N. destruct (norm_scales q N) as [r [RP [RL [S1 [S2 S3]]]]]. cbv zeta.
  assert (RN : sqrt (q_norm2 (rq q)) = r) by (rewrite <- RL; apply sqrt_square; lra). rewrite RN.
  destruct (length2_b q r FQ RL S1) as [FL HL]. destruct (comps q r RP RL) as [HX [HY [HZ HW]]].
  assert (LB : s_fin (qlength q) /\ Rabs (B2R (qlength q) - r) <= 6 * uro * r).
  { set (d := qlength2 q) in *. change (qlength q) with (nsqrt d). apply Rabs_le_inv in HL.
    assert (LP : 0 < r * r) by nra. assert (D0 : 0 < B2R d) by (unfold uro in *; lra).
    destruct (sqrt_R d FL) as [FS ES]; [lra|]. split; auto. rewrite ES.
    assert (SP := sqrt_lt_R0 _ D0). assert (SS : sqrt (B2R d) * sqrt (B2R d) = B2R d) by (apply sqrt_sqrt; lra). set (s := sqrt (B2R d)) in *.
    rewrite <- SS in HL.
    assert (UP : s <= (1 + (5/2 + /100) * uro) * r). { apply Rnot_lt_le. intro C. assert (((1 + (5/2 + /100) * uro) * r) * ((1 + (5/2 + /100) * uro) * r) < s * s) by (apply Rmult_le_0_lt_compat; unfold uro in *; nra). unfold uro in *. nra. }
    assert (LO : (1 - (5/2 + /100) * uro) * r <= s). { apply Rnot_lt_le. intro C. assert (s * s < ((1 - (5/2 + /100) * uro) * r) * ((1 - (5/2 + /100) * uro) * r)) by (apply Rmult_le_0_lt_compat; unfold uro in *; nra). unfold uro in *. nra. }
    pose proof (rnd_err s) as RE. rewrite (Rabs_right s) in RE by lra.
    assert (EE : eta <= uro * r / 10). { pose proof (scale_eta _ S1) as E1. pose proof (scale_eta _ S3) as E3. pose proof eta_pos as EP.
      assert (B : eta <= uro / 1000). { pose proof (scale_eta 1) as X. assert (eta <= uro * 1 / 1000) by (apply X; split; change 1 with (bpow radix2 0); apply bpow_le; lia). lra. }
      destruct (Rle_lt_dec 1 r) as [C|C]; [unfold uro in *; lra|]. unfold uro in *. nra. }
    apply Rabs_le. apply Rabs_le_inv in RE. unfold uro in *. lra. }
  destruct LB as [LF LB]. split; [exact LF|]. split; [exact LB|]. destruct FQ as [FX [FY [FZ FW]]].
  destruct (unit_entry (qx q) (qlength q) r FX RP HX LB) as [A1 A2]. destruct (unit_entry (qy q) (qlength q) r FY RP HY LB) as [B1 B2].
  destruct (unit_entry (qz q) (qlength q) r FZ RP HZ LB) as [C1 C2]. destruct (unit_entry (qw q) (qlength q) r FW RP HW LB) as [D1 D2].
  unfold qnormalized, s_finq, s_fin. cbn [qx qy qz qw]. auto 10.
Qed.
(** the restriction on the length is needed: the squared length of a tiny non-zero quaternion underflows and the matrix is not finite *)
Definition tiny : F64 := ndiv n1 (nmul (nmul (nofZ (2 ^ 300)) (nofZ (2 ^ 300))) n2).
Theorem C86_tiny_refuted : exists q : quat F64, s_finq q /\ 0 < q_norm2 (rq q) /\ ~ s_finm (m3setRotation q).
Proof.
  exists (Q tiny n0 n0 n0). split; [unfold s_finq, s_fin; cbn [qx qy qz qw]; repeat split; vm_compute; reflexivity|]. split.
  - unfold q_norm2, rq. cbn [qx qy qz qw]. assert (H : 0 < B2R tiny).
    { assert (E : Rlt_bool 0 (B2R tiny) = true); [|revert E; case Rlt_bool_spec; auto; discriminate].
      assert (B := Bltb_correct 53 1024 (nofZ 0) tiny). assert (Z : B2R (nofZ 0 : F64) = 0) by (apply (ofZ_R 0); reflexivity). rewrite <- Z.
      symmetry. etransitivity; [|apply B; vm_compute; reflexivity]. vm_compute. reflexivity. }
    pose proof (pow2_ge_0 (B2R (n0 : F64))). assert (0 < B2R tiny ^ 2) by (apply pow_lt; auto). lra.
  - intros [[H _] _]. revert H. unfold s_fin. vm_compute. discriminate.
Qed.

(** ** The hypotheses are met by ordinary data: quaternion (1,2,3,4), origin (10,-20,5), point (7,0,-3) *)
Definition exq : quat F64 := Q (nofZ 1) (nofZ 2) (nofZ 3) (nofZ 4).
Definition exo : vec3 F64 := V3 (nofZ 10) (nofZ (-20)) (nofZ 5).
Definition exp_ : vec3 F64 := V3 (nofZ 7) (nofZ 0) (nofZ (-3)).
Lemma exv : forall a b c M, (-2 ^ 40 < a < 2 ^ 40)%Z -> (-2 ^ 40 < b < 2 ^ 40)%Z -> (-2 ^ 40 < c < 2 ^ 40)%Z -> Rabs (IZR a) <= M -> Rabs (IZR b) <= M -> Rabs (IZR c) <= M ->
  s_finv (V3 (nofZ a) (nofZ b) (nofZ c) : vec3 F64) /\ s_bound M (rv (V3 (nofZ a) (nofZ b) (nofZ c))) /\ rv (V3 (nofZ a) (nofZ b) (nofZ c)) = V3 (IZR a) (IZR b) (IZR c).
Proof.
  intros a b c M A B C HA HB HC. destruct (ofZ_R a) as [F1 E1]; [lia|]. destruct (ofZ_R b) as [F2 E2]; [lia|]. destruct (ofZ_R c) as [F3 E3]; [lia|].
  unfold s_finv, s_fin, s_bound, rv. cbn [vx vy vz]. rewrite E1, E2, E3. auto 10.
Qed.
Lemma exqr : s_finq exq /\ s_range exq.
Proof.
  destruct (ofZ_R 1) as [F1 E1]; [reflexivity|]. destruct (ofZ_R 2) as [F2 E2]; [reflexivity|]. destruct (ofZ_R 3) as [F3 E3]; [reflexivity|]. destruct (ofZ_R 4) as [F4 E4]; [reflexivity|].
  split; [unfold s_finq, s_fin; cbn [qx qy qz qw]; auto|]. unfold s_range, q_norm2, rq, exq. cbn [qx qy qz qw]. rewrite E1, E2, E3, E4. split.
  - apply Rle_trans with (bpow radix2 0); [apply bpow_le; lia|cbn; lra].
  - apply Rle_trans with (bpow radix2 5); [cbn; lra|apply bpow_le; lia].
Qed.
Lemma small_big : forall x, x <= 1024 -> x <= big / 1024.
Proof. intros x H. unfold big. change 1023%Z with (1013 + 10)%Z. rewrite bpow_plus. change (bpow radix2 10) with 1024. assert (bpow radix2 10 <= bpow radix2 1013) by (apply bpow_le; lia). change (bpow radix2 10) with 1024 in *. lra. Qed.
Example C86_nonvacuous : s_finq exq /\ s_range exq /\ s_finv exo /\ s_finv exp_ /\ s_bound 7 (rv exp_) /\ s_bound 20 (rv exo) /\ 7 <= big / 1024 /\ 20 <= big / 1024 /\ s_rangev exo.
Proof.
  destruct exqr as [F G]. destruct (exv 10 (-20) 5 20) as [F1 [B1 E1]]; try lia; try (apply Rabs_le; lra). destruct (exv 7 0 (-3) 7) as [F2 [B2 _]]; try lia; try (apply Rabs_le; lra).
  split; auto. split; auto. split; auto. split; auto. split; auto. split; auto. split; [apply small_big; lra|]. split; [apply small_big; lra|].
  unfold s_rangev, exo. rewrite E1. unfold s_norm2, s_dot. cbn [vx vy vz]. split.
  - apply Rle_trans with (bpow radix2 0); [apply bpow_le; lia|cbn; lra].
  - apply Rle_trans with (bpow radix2 10); [cbn; lra|apply bpow_le; lia].
Qed.
(** the same pose meets the hypotheses of C85: entries at most 1001/1000, orthonormal up to 448 u *)
Example C85_nonvacuous : let t := T3 (m3setRotation exq) exo in
  s_finm (tR t) /\ s_finv (MathTypes.tt t) /\ s_finv exp_ /\ s_ortho (448 * uro) (rm (tR t)) /\ 448 * uro <= 1 / 1000 /\
  s_boundm (1001 / 1000) (rm (tR t)) /\ s_bound 7 (rv exp_) /\ s_bound 20 (rv (MathTypes.tt t)) /\ 1001 / 1000 * 7 <= big / 8.
Proof.
  intros t. destruct exqr as [F G]. destruct C86_nonvacuous as [_ [_ [FO [FP [BP [BO [H7 _]]]]]]]. destruct (setRotation_b exq F G) as [FM _].
  assert (O := setRotation_ortho exq F G). assert (U : 448 * uro <= 1 / 1000) by (unfold uro; lra).
  split; auto. split; auto. split; auto. split; auto. split; auto. split; [exact (ortho_bound _ _ O U)|]. split; auto. split; auto. pose proof (small_big (1001 / 1000 * 7)) as S. pose proof big_pos. lra.
Qed.

Print Assumptions C85_apply.
Print Assumptions C85_compose.
Print Assumptions C85_inverse.
Print Assumptions C85_round_trip.
Print Assumptions C86_matrix.
Print Assumptions C86_orthonormal.
Print Assumptions C86_round_trip.
Print Assumptions C86_length.
Print Assumptions C86_normalized.
Print Assumptions C86_quaternion_normalized.
Print Assumptions C86_tiny_refuted.
