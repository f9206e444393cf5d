(** * C114: rays through composite shapes on doubles *)
From Coq Require Import ZArith NArith List Bool Lia Reals Lra.
From Flocq Require Import Core BinarySingleNaN.
From Verif Require Import Num MathTypes Outcome Mesh Box Composite Spec SpecComposite SpecRound SpecCompF P_Tac P_Math P_Rot P_Round P_Round2 P_Round3 P_InsideF P_Query4 P_CompF1 P_CompF2 P_CompF3 P_CompF4 P_CompF5 P_CompF6 Props_Round Props_RayF Props_CompF.
Import ListNotations.
Local Open Scope R_scope.

Lemma by_passes : forall e t p, s_in_by e t p -> exists mn mx pose, s_leaf t mn mx pose /\ s_placed (V3 (vx mn - e) (vy mn - e) (vz mn - e)) (V3 (vx mx + e) (vy mx + e) (vz mx + e)) pose p.
Proof.
  intros e t p H. induction H as [mn mx p H|l t pose q I H IH].
  - exists mn, mx, tidentity. split; [constructor|]. exists p. split; auto. rewrite tapply_id. auto.
  - destruct IH as [mn [mx [q' [L [v [V E]]]]]]. exists mn, mx, (tmul pose q'). split; [econstructor; eauto|]. exists v. split; auto. rewrite E, apply_mul. auto.
Qed.

Section Shape.
  (** a history of addShape calls on doubles as in C111: drawn from a tree of real boxes in rigid poses of depth k, with matrices within rho of
      the rotations, in a ball of radius m *)
  Context (rho m : R) (k : nat) (t : ctree F64) (t' : ctree R).
  Context (RHO : 0 <= rho <= 1 / 100) (SIZE : bpow radix2 (-100) <= m <= 10 ^ 19).
  Context (DRAWN : s_drawn rho t t') (DEPTH : s_depth k t') (WITHIN : s_within m t') (COUNT : (N.of_nat (8 * s_nboxes t') < 2^32)%N).
  Context (SMALL : 14 * uro + INR k * (11 * rho + 160 * uro) <= 1 / 10 ^ 9).
  (** the error: the rounding to floats, and one contribution for each level *)
  Let e := (/ 1048576 + 98 * uro + INR k * (97 * rho + 1270 * uro)) * m.

  (** a ray that starts in the ball and has no direction component below 2e-9 in any frame: a reported hit is a box that, grown by e, the ray
      passes at the reported distance, before t1, and that it has not left at t0; and a box that, shrunk by e, the ray enters before t1 and has not left at t0
      is reported, no later than any point in it *)
  Theorem C114_ray : exists ch, build t = Ret ch /\ forall (o d : vec3 F64) (t0 t1 d0 : F64),
    s_finv o -> s_norm (rv o) <= m -> s_finv d -> s_rangev d -> s_fin t0 -> s_single t1 ->
    let u := SpecRound.s_unit (rv d) in
    (forall q, s_frame t' q -> s_skew (2 / 10 ^ 9) (m3mulv (tR (tinverse q)) u)) ->
    exists hit x, ch_ray ch (ray_make o d) t0 t1 d0 = Ret (hit, x) /\
    (hit = true -> s_single x /\ B2R x < B2R t1 /\ exists mn mx pose, s_leaf t' mn mx pose /\
       (exists s, B2R t0 < s /\ s_passes e mn mx pose (rv o) u s) /\ s_passes e mn mx pose (rv o) u (B2R x)) /\
    (forall mn mx pose s0 s, s_leaf t' mn mx pose -> B2R t0 < s0 -> s_passes (- e) mn mx pose (rv o) u s0 ->
       s_passes (- e) mn mx pose (rv o) u s -> s < B2R t1 -> hit = true /\ B2R x <= s).
  Proof.
    destruct (rng_eta m (rsize_rng m SIZE)) as [MP _].
    assert (EK : er rho m k <= m / 100).
    { unfold er, del. pose proof (pos_INR k). assert (INR k * (20 * rho + 150 * uro) <= 2 * (INR k * (11 * rho + 160 * uro))) by (assert (0 <= INR k * (2 * rho + 170 * uro)) by (apply Rmult_le_pos; unfold uro; lra); lra).
      replace (INR k * ((20 * rho + 150 * uro) * m)) with (INR k * (20 * rho + 150 * uro) * m) by ring. unfold uro in *. nra. }
    destruct (rbuild rho m RHO SIZE t' t k m DRAWN DEPTH WITHIN (Rle_refl m) EK COUNT) as [ch [EB [_ RO]]]. exists ch. split; auto.
    intros o d t0 t1 d0 FO NO FD RD F0 S1 u SK.
    assert (NP : 0 < s_norm2 (rv d)). { destruct RD as [RD' _]. pose proof (bpow_gt_0 radix2 (-900)). lra. }
    destruct (normalized_b d FD RD) as [_ CW]. apply close_dist in CW; [|unfold uro; lra]. fold u in CW.
    assert (EM : margin rho m k 0 (14 * uro) = e) by (unfold margin, rdel, del, ddel, slack, e; field).
    rewrite <- EM. apply RO; auto.
    - lra.
    - apply norm_unit. auto.
    - rewrite dist_self. lra.
    - lra.
    - lra.
  Qed.
  (** in terms of the region: from the first point at which the ray is e deep inside the shape on, the hit is reported; and at the reported distance the ray is within 7/4 e of the shape *)
  Theorem C114_region : exists ch, build t = Ret ch /\ forall (o d : vec3 F64) (t0 t1 d0 : F64),
    s_finv o -> s_norm (rv o) <= m -> s_finv d -> s_rangev d -> s_fin t0 -> s_single t1 ->
    let u := SpecRound.s_unit (rv d) in
    (forall q, s_frame t' q -> s_skew (2 / 10 ^ 9) (m3mulv (tR (tinverse q)) u)) ->
    exists hit x, ch_ray ch (ray_make o d) t0 t1 d0 = Ret (hit, x) /\
    (hit = true -> B2R x < B2R t1 /\ exists q, s_in t' q /\ s_dist (s_ray_at (rv o) u (B2R x)) q <= 7 / 4 * e) /\
    (forall s, B2R t0 < s < B2R t1 -> s_in_by (- e) t' (s_ray_at (rv o) u s) -> hit = true /\ B2R x <= s).
  Proof.
    assert (W : s_wf t').
    { clear - DRAWN. revert t DRAWN. induction t' as [mn mx|l IH] using P_Composite.ctree_ind'; intros t DR; inversion DR as [|l0 ? F]; subst; constructor; auto.
      intros s pose I. clear DR. revert IH I. induction F as [|a [b pb] l0 l [D P] F IHF]; intros IH I; [contradiction|]. destruct I as [[= <- <-]|I].
      - split; [eapply IH; [left; reflexivity|exact D]|apply P].
      - apply IHF; auto. intros; eapply IH; eauto. right. eauto. }
    assert (E0 : 0 <= e).
    { destruct (rng_eta m (rsize_rng m SIZE)) as [MP _]. unfold e. pose proof (pos_INR k). assert (0 <= INR k * (97 * rho + 1270 * uro)) by (apply Rmult_le_pos; unfold uro; lra). apply Rmult_le_pos; unfold uro in *; lra. }
    destruct C114_ray as [ch [EB H]]. exists ch. split; auto. intros o d t0 t1 d0 FO NO FD RD F0 S1 u SK. destruct (H o d t0 t1 d0 FO NO FD RD F0 S1 SK) as [hit [x [ER [H1 H2]]]]. fold u in H1, H2.
    exists hit, x. split; auto.
    assert (C : forall s, B2R t0 < s < B2R t1 -> s_in_by (- e) t' (s_ray_at (rv o) u s) -> hit = true /\ B2R x <= s).
    { intros s [L0 L1] I. destruct (by_passes _ _ _ I) as [mn [mx [pose [L P]]]]. apply (H2 mn mx pose s s); auto. }
    split; auto. intros HT. destruct (H1 HT) as [_ [A [mn [mx [pose [L [_ P]]]]]]]. split; auto. apply (C111_margins e t' (s_ray_at (rv o) u (B2R x)) E0 W). eapply passes_by; eauto.
  Qed.
End Shape.
Print Assumptions C114_ray.
Print Assumptions C114_region.

(** ** The hypotheses are met by the composite of C111 (two boxes, one nested) and the ray from the origin through the centre of the first box *)
Definition ray_asks (d : vec3 F64) : outcome (bool * F64) := let* ch := build exF in ch_ray ch (ray_make (V3 n0 n0 n0) d) n0 (nofZ 1000) n0.
Lemma poseR_rot : tR poseR = M3 (2 / 15) (-2 / 3) (11 / 15) (14 / 15) (1 / 3) (2 / 15) (-1 / 3) (2 / 3) (2 / 3).
Proof.
  destruct (ofZ_R 1) as [_ E1]; [reflexivity|]. destruct (ofZ_R 2) as [_ E2]; [reflexivity|]. destruct (ofZ_R 3) as [_ E3]; [reflexivity|]. destruct (ofZ_R 4) as [_ E4]; [reflexivity|].
  unfold poseR. cbn [tR]. assert (N : q_norm2 (rq exq) = 30) by (unfold q_norm2, rq, exq; cbn [qx qy qz qw]; rewrite E1, E2, E3, E4; ring).
  rewrite qmat_eq by lra. unfold rq, exq. cbn [qx qy qz qw]. rewrite E1, E2, E3, E4. unfold m3setRotation. unmath. assert (ME : forall a b c d x f g h i a' b' c' d' x' f' g' h' i' : R, a = a' -> b = b' -> c = c' -> d = d' -> x = x' -> f = f' -> g = g' -> h = h' -> i = i' -> M3 a b c d x f g h i = M3 a' b' c' d' x' f' g' h' i') by (intros; subst; reflexivity).
  apply ME; field.
Qed.
Example C114_nonvacuous :
  let e := (/ 1048576 + 98 * uro + INR 2 * (97 * (64 * uro) + 1270 * uro)) * 100 in let u := SpecRound.s_unit (rv exo) in
  (0 <= 64 * uro <= 1 / 100 /\ bpow radix2 (-100) <= 100 <= 10 ^ 19 /\ 14 * uro + INR 2 * (11 * (64 * uro) + 160 * uro) <= 1 / 10 ^ 9) /\
  (s_finv (V3 n0 n0 n0 : vec3 F64) /\ s_norm (rv (V3 n0 n0 n0)) <= 100 /\ s_finv exo /\ s_rangev exo /\ s_fin (n0 : F64) /\ s_single (nofZ 1000)) /\
  (forall q, s_frame exR q -> s_skew (2 / 10 ^ 9) (m3mulv (tR (tinverse q)) u)) /\
  (exists s, B2R (n0 : F64) < s < B2R (nofZ 1000 : F64) /\ s_in_by (- e) exR (s_ray_at (rv (V3 n0 n0 n0)) u s)) /\
  (match ray_asks exo with Ret (h, x) => h && nltb (nofZ 21) x && nltb x (nofZ 22) | _ => false end = true)%bool /\
  (match ray_asks (V3 (nofZ 1) (nofZ 1) (nofZ 1)) with Ret (h, x) => negb h | _ => false end = true)%bool.
Proof.
  destruct (exv 10 (-20) 5 20) as [FO [_ EO]]; try lia; try (apply Rabs_le; lra). change (V3 (nofZ 10) (nofZ (-20)) (nofZ 5)) with exo in *.
  destruct (ofZ_R 1000) as [FK EK]; [reflexivity|].
  assert (N : s_norm2 (rv exo) = 525) by (rewrite EO; unfold s_norm2, s_dot; cbn [vx vy vz]; ring).
  assert (SQ : 22 <= sqrt 525 <= 23). { split; [rewrite <- (sqrt_square 22) by lra|rewrite <- (sqrt_square 23) by lra]; apply sqrt_le_1_alt; lra. }
  assert (RZ : rv (V3 n0 n0 n0) = V3 0 0 0) by reflexivity.
  intros e u. assert (EU : u = V3 (10 / sqrt 525) (-20 / sqrt 525) (5 / sqrt 525)). { unfold u, SpecRound.s_unit. rewrite N, EO. reflexivity. }
  split; [|split; [|split; [|split; [|split]]]].
  - split; [unfold uro; lra|]. split; [split; [apply Rle_trans with (bpow radix2 0); [apply bpow_le; lia|cbn; lra]|lra]|]. cbn [INR]. unfold uro. lra.
  - split; [repeat split|]. split. { rewrite RZ. unfold s_norm, s_dot. cbn [vx vy vz]. rewrite Rmult_0_r, !Rplus_0_r, sqrt_0. lra. }
    split; auto. split. { unfold s_rangev. rewrite N. split; [apply Rle_trans with (bpow radix2 0); [apply bpow_le; lia|cbn; lra]|apply Rle_trans with (bpow radix2 10); [cbn; lra|apply bpow_le; lia]]. }
    split; [reflexivity|]. split; [exact FK|]. rewrite EK. split.
    + apply round_generic; auto with typeclass_instances. apply generic_format_FLT. exists (Float radix2 1000 0); [unfold F2R; cbn; lra|cbn; lia|cbn; lia].
    + rewrite Rabs_right by lra. apply Rle_lt_trans with (bpow radix2 10); [cbn; lra|apply bpow_lt; lia].
  - assert (I30 : 1 / 30 <= / sqrt 525) by (apply Rle_trans with (/ 23); [lra|apply Rinv_le_contravar; lra]).
    assert (SK : forall a b c, 1 <= Rabs a -> 1 <= Rabs b -> 1 <= Rabs c -> s_skew (2 / 10 ^ 9) (V3 (a / sqrt 525) (b / sqrt 525) (c / sqrt 525))).
    { assert (G : forall a, 1 <= Rabs a -> 2 / 10 ^ 9 <= Rabs (a / sqrt 525)). { intros a A. unfold Rdiv at 2. rewrite Rabs_mult, (Rabs_right (/ _)) by lra. nra. }
      intros a b c A B C. unfold s_skew. cbn [vx vy vz]. auto. }
    assert (A1 : forall x, 1 <= x -> 1 <= Rabs x) by (intros x X; rewrite Rabs_right; lra). assert (A2 : forall x, x <= -1 -> 1 <= Rabs x) by (intros x X; rewrite Rabs_left; lra).
    assert (FRB : forall q, s_frame ubR q -> q = tidentity) by (intros q H; inversion H; reflexivity).
    assert (D0 : s_skew (2 / 10 ^ 9) u) by (rewrite EU; apply SK; [apply A1|apply A2|apply A1]; lra).
    assert (S0 : sqrt 525 <> 0) by lra.
    assert (E1 : m3mulv (tR (tinverse poseR)) u = V3 (-19 / sqrt 525) (-10 / sqrt 525) (8 / sqrt 525)).
    { change (tR (tinverse poseR)) with (m3transpose (tR poseR)). rewrite poseR_rot, EU. unmath. apply V3_eq; field; auto. }
    assert (E2 : m3mulv (tR (tinverse poseR)) (V3 (-19 / sqrt 525) (-10 / sqrt 525) (8 / sqrt 525)) = V3 ((-218 / 15) / sqrt 525) ((44 / 3) / sqrt 525) ((-149 / 15) / sqrt 525)).
    { change (tR (tinverse poseR)) with (m3transpose (tR poseR)). rewrite poseR_rot. unmath. apply V3_eq; field; auto. }
    intros q F. inversion F as [|l s pose q' I F']; subst; [rewrite dir_id; auto|]. rewrite dir_frame. destruct I as [[= <- <-]|[[= <- <-]|[]]].
    + rewrite (FRB _ F'), dir_id, E1. apply SK; [apply A2|apply A2|apply A1]; lra.
    + inversion F' as [|l s pose q'' I F'']; subst; [rewrite dir_id, E1; apply SK; [apply A2|apply A2|apply A1]; lra|]. destruct I as [[= <- <-]|[]].
      rewrite dir_frame, (FRB _ F''), dir_id, E1, E2. apply SK; [apply A2|apply A1|apply A2]; lra.
  - exists (sqrt 525). rewrite EK. change (B2R (n0 : F64)) with 0. split; [lra|].
    replace (s_ray_at (rv (V3 n0 n0 n0)) u (sqrt 525)) with (tapply poseR (V3 0 0 0)).
    + econstructor; [left; reflexivity|]. unfold ubR. constructor. unfold e, s_in_box. cbn [vx vy vz INR]. unfold uro. lra.
    + rewrite apply_zero. unfold poseR. cbn [MathTypes.tt]. rewrite RZ, EU, EO. unfold s_ray_at. cbn [vx vy vz]. apply V3_eq; field; lra.
  - vm_compute. reflexivity.
  - vm_compute. reflexivity.
Qed.
