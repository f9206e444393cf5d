(** Composite shapes on doubles, part 1: distances, and one step into and out of a child's frame *)
From Coq Require Import ZArith NArith List Bool Lia Reals Lra Psatz.
From Flocq Require Import Core BinarySingleNaN.
From Verif Require Import Num NumOrd MathTypes Outcome Mesh Box Composite Spec SpecComposite SpecRound SpecCompF P_Tac P_Math P_Rot P_Round P_Round2 P_Round3 P_OctF P_Libm P_Query4.
Import ListNotations.
Local Open Scope R_scope.
Local Notation fin := (is_finite (prec := 53) (emax := 1024)).

(** ** Euclidean distances *)
Lemma dist_norm : forall a b, s_dist a b = s_norm (s_diff a b).
Proof. intros [a b c] [x y z]. unfold s_dist, s_norm, s_dist2, s_diff, s_dot. cbn [vx vy vz]. f_equal. ring. Qed.
Lemma dist_pos : forall a b, 0 <= s_dist a b.
Proof. intros. apply sqrt_pos. Qed.
Lemma dist2_pos : forall a b, 0 <= s_dist2 a b.
Proof. intros a b. unfold s_dist2. pose proof (pow2_ge_0 (vx a - vx b)). pose proof (pow2_ge_0 (vy a - vy b)). pose proof (pow2_ge_0 (vz a - vz b)). lra. Qed.
Lemma dist_sq : forall a b, s_dist a b * s_dist a b = s_dist2 a b.
Proof. intros. apply sqrt_sqrt, dist2_pos. Qed.
Lemma dist_le : forall a b e, 0 <= e -> s_dist2 a b <= e * e -> s_dist a b <= e.
Proof. intros a b e P H. unfold s_dist. rewrite <- (sqrt_square e) by auto. apply sqrt_le_1_alt. auto. Qed.
Lemma dist_sym : forall a b, s_dist a b = s_dist b a.
Proof. intros. unfold s_dist, s_dist2. f_equal. ring. Qed.
Lemma dist_self : forall a, s_dist a a = 0.
Proof. intros. unfold s_dist, s_dist2. rewrite <- sqrt_0. f_equal. ring. Qed.
Lemma norm_tri : forall u v w : vec3 R, w = V3 (vx u + vx v) (vy u + vy v) (vz u + vz v) -> s_norm w <= s_norm u + s_norm v.
Proof.
  intros u v w E. assert (P : 0 <= s_norm u + s_norm v) by (pose proof (sqrt_pos (s_dot u u)); pose proof (sqrt_pos (s_dot v v)); unfold s_norm; lra).
  assert (S : forall v, s_norm v * s_norm v = s_norm2 v) by (intros x; apply sqrt_sqrt, norm2_pos).
  assert (C : s_dot u v <= s_norm u * s_norm v).
  { destruct (Rle_dec (s_dot u v) 0) as [L|L]. { assert (0 <= s_norm u * s_norm v) by (apply Rmult_le_pos; apply sqrt_pos). lra. }
    unfold s_norm. rewrite <- sqrt_mult by apply norm2_pos. rewrite <- (sqrt_square (s_dot u v)) by lra. apply sqrt_le_1_alt. apply cauchy. }
  assert (A : s_norm2 w = s_norm2 u + s_norm2 v + 2 * s_dot u v) by (rewrite E; unfold s_norm2, s_dot; cbn [vx vy vz]; ring).
  unfold s_norm at 1. change (s_dot w w) with (s_norm2 w). rewrite <- (sqrt_square (s_norm u + s_norm v)) by auto. apply sqrt_le_1_alt.
  replace ((s_norm u + s_norm v) * (s_norm u + s_norm v)) with (s_norm2 u + s_norm2 v + 2 * (s_norm u * s_norm v)) by (rewrite <- !S; ring). lra.
Qed.
Lemma dist_tri : forall a b c, s_dist a c <= s_dist a b + s_dist b c.
Proof. intros a b c. rewrite !dist_norm. apply norm_tri. unfold s_diff. cbn [vx vy vz]. f_equal; ring. Qed.
Lemma norm_dist : forall a b, s_norm a <= s_norm b + s_dist a b.
Proof. intros [a1 a2 a3] [b1 b2 b3]. rewrite dist_norm. apply norm_tri. unfold s_diff. cbn [vx vy vz]. f_equal; ring. Qed.
Lemma norm_comp : forall v, s_bound (s_norm v) v.
Proof.
  intros v. assert (G : forall x, x * x <= s_dot v v -> Rabs x <= s_norm v).
  { intros x H. rewrite <- sqrt_Rsqr_abs. apply sqrt_le_1_alt. unfold Rsqr. auto. }
  unfold s_bound. assert (Q1 := Rle_0_sqr (vx v)). assert (Q2 := Rle_0_sqr (vy v)). assert (Q3 := Rle_0_sqr (vz v)). unfold Rsqr in *.
  repeat split; apply G; unfold s_dot; lra.
Qed.
Lemma dist_comp : forall a b e, s_dist a b <= e -> s_close e a b.
Proof. intros a b e H. pose proof (norm_comp (s_diff a b)) as [A [B C]]. rewrite <- dist_norm in *. unfold s_diff in *. cbn [vx vy vz] in *. unfold s_close. lra. Qed.
Lemma close_dist : forall a b c, 0 <= c -> s_close c a b -> s_dist a b <= 7 / 4 * c.
Proof.
  intros a b c P [A [B C]]. apply dist_le; [lra|]. unfold s_dist2.
  assert (G : forall x, Rabs x <= c -> x ^ 2 <= c * c). { intros x X. apply Rabs_le_inv in X. nra. }
  specialize (G _ A) as GA. specialize (G _ B) as GB. specialize (G _ C) as GC. nra.
Qed.
Lemma rigid_dist : forall t a b, rigid t -> s_dist (tapply t a) (tapply t b) = s_dist a b.
Proof. intros. unfold s_dist. rewrite rigid_dist2; auto. Qed.
Lemma apply_zero : forall t : trans3 R, tapply t (V3 0 0 0) = MathTypes.tt t.
Proof. intros [[a b c d e f g h i] [x y z]]. unmath. apply V3_eq; ring. Qed.
Lemma norm_zero : forall v, s_norm v = s_dist v (V3 0 0 0).
Proof. intros [x y z]. unfold s_norm, s_dist, s_dot, s_dist2. cbn [vx vy vz]. f_equal. ring. Qed.
Lemma fwd_norm : forall t v, rigid t -> s_norm (tapply t v) <= s_norm v + s_norm (MathTypes.tt t).
Proof.
  intros t v H. pose proof (norm_dist (tapply t v) (tapply t (V3 0 0 0))) as A. rewrite rigid_dist, apply_zero, <- norm_zero in A by auto. lra.
Qed.
Lemma inv_norm : forall t v, rigid t -> s_norm (tapply (tinverse t) v) <= s_norm v + s_norm (MathTypes.tt t).
Proof.
  intros t v H. rewrite norm_zero. rewrite <- (rigid_dist t) by auto. rewrite tapply_inverse, apply_zero by auto.
  eapply Rle_trans; [apply (dist_tri _ (V3 0 0 0))|]. rewrite <- norm_zero, (dist_sym (V3 0 0 0)), <- norm_zero. lra.
Qed.

(** ** one transform on doubles against the rigid motion it is drawn from *)
Definition rng (m : R) : Prop := bpow radix2 (-400) <= m <= bpow radix2 398.
Lemma rng_eta : forall m, rng m -> 0 < m /\ eta <= uro * m / 1000 /\ 1000 * m <= big.
Proof.
  intros m [A B]. assert (P := bpow_gt_0 radix2 (-400)). split; [lra|]. split.
  - apply scale_eta. split; [apply Rle_trans with (bpow radix2 (-400)); [apply bpow_le; lia|lra]|apply Rle_trans with (bpow radix2 398); [lra|apply bpow_le; lia]].
  - apply Rle_trans with (bpow radix2 10 * bpow radix2 398); [change (bpow radix2 10) with 1024; nra|]. rewrite <- bpow_plus. apply bpow_le. lia.
Qed.
Lemma tapply_moved : forall (t : trans3 R) v, tapply t v = SpecRound.s_moved (tR t) (MathTypes.tt t) v.
Proof. intros [[a b c d e f g h i] [x y z]] [u v w]. unfold SpecRound.s_moved, s_dot. unmath. apply V3_eq; ring. Qed.
Lemma bound_le : forall a b v, s_bound a v -> a <= b -> s_bound b v.
Proof. intros a b v [A [B C]] H. repeat split; lra. Qed.
Lemma closem_t : forall e a b, s_closem e (rm a) b -> s_closem e (rm (m3transpose a)) (m3transpose b).
Proof.
  intros e [a1 a2 a3 a4 a5 a6 a7 a8 a9] [b1 b2 b3 b4 b5 b6 b7 b8 b9] [[A1 [A2 A3]] [[B1 [B2 B3]] [C1 [C2 C3]]]]. cbn in *.
  unfold s_closem, s_close. cbn. auto 10.
Qed.
Lemma finm_t : forall a : mat3 F64, s_finm a -> s_finm (m3transpose a).
Proof. intros [a1 a2 a3 a4 a5 a6 a7 a8 a9]. unfold s_finm, m3transpose. cbn [MathTypes.mxx MathTypes.mxy MathTypes.mxz MathTypes.myx MathTypes.myy MathTypes.myz MathTypes.mzx MathTypes.mzy MathTypes.mzz]. tauto. Qed.
Lemma moved_shift : forall e m t t' v, s_close e t t' -> s_close e (SpecRound.s_moved m t v) (SpecRound.s_moved m t' v).
Proof.
  intros e m t t' v [A [B C]]. unfold SpecRound.s_moved, s_close. cbn [vx vy vz].
  repeat split; match goal with |- Rabs (?x + ?a - (?x + ?b)) <= _ => replace (x + a - (x + b)) with (a - b) by ring end; assumption.
Qed.
Lemma col_close : forall e m n v N, s_closem e m n -> s_bound N v ->
  s_close (3 * e * N) (V3 (- s_dot (col1 m) v) (- s_dot (col2 m) v) (- s_dot (col3 m) v)) (V3 (- s_dot (col1 n) v) (- s_dot (col2 n) v) (- s_dot (col3 n) v)).
Proof.
  intros e [a1 a2 a3 a4 a5 a6 a7 a8 a9] [b1 b2 b3 b4 b5 b6 b7 b8 b9] v N [[A1 [A2 A3]] [[B1 [B2 B3]] [C1 [C2 C3]]]] [V1 [V2 V3]]. unfold s_dot, col1, col2, col3, s_close. cbn in *.
  assert (G : forall x y z x' y' z', Rabs (x - x') <= e -> Rabs (y - y') <= e -> Rabs (z - z') <= e ->
    Rabs (- (x * vx v + y * vy v + z * vz v) - - (x' * vx v + y' * vy v + z' * vz v)) <= 3 * e * N).
  { intros x y z x' y' z' X Y Z. pose proof (Rabs_mult_le _ _ _ _ X V1). pose proof (Rabs_mult_le _ _ _ _ Y V2). pose proof (Rabs_mult_le _ _ _ _ Z V3).
    replace (- _ - - _) with (- ((x - x') * vx v + (y - y') * vy v + (z - z') * vz v)) by ring. rewrite Rabs_Ropp.
    eapply Rle_trans; [apply Rabs_triang|]. eapply Rle_trans; [apply Rplus_le_compat_r, Rabs_triang|]. lra. }
  repeat split; apply G; auto.
Qed.
Lemma col_bound : forall m v N, s_boundm 2 m -> s_bound N v -> s_bound (6 * N) (V3 (- s_dot (col1 m) v) (- s_dot (col2 m) v) (- s_dot (col3 m) v)).
Proof.
  intros [a1 a2 a3 a4 a5 a6 a7 a8 a9] v N [[A1 [A2 A3]] [[B1 [B2 B3]] [C1 [C2 C3]]]] [V1 [V2 V3]]. unfold s_dot, col1, col2, col3, s_bound. cbn in *.
  assert (G : forall x y z, Rabs x <= 2 -> Rabs y <= 2 -> Rabs z <= 2 -> Rabs (- (x * vx v + y * vy v + z * vz v)) <= 6 * N).
  { intros x y z X Y Z. pose proof (Rabs_mult_le _ _ _ _ X V1). pose proof (Rabs_mult_le _ _ _ _ Y V2). pose proof (Rabs_mult_le _ _ _ _ Z V3).
    rewrite Rabs_Ropp. eapply Rle_trans; [apply Rabs_triang|]. eapply Rle_trans; [apply Rplus_le_compat_r, Rabs_triang|]. lra. }
  repeat split; apply G; auto.
Qed.
Lemma boundm_t : forall A a, s_boundm A (rm a) -> s_boundm A (rm (m3transpose a)).
Proof.
  intros A [a1 a2 a3 a4 a5 a6 a7 a8 a9] [[A1 [A2 A3]] [[B1 [B2 B3]] [C1 [C2 C3]]]]. unfold s_boundm, s_bound. cbn in *. auto 10.
Qed.
Lemma close_bound : forall e B a b, s_close e a b -> s_bound B b -> s_bound (B + e) a.
Proof. intros e B a b [A1 [A2 A3]] [B1 [B2 B3]]. repeat split; (eapply Rle_trans; [eapply Rabs_close; eassumption|lra]). Qed.
Lemma tinv_moved : forall (t : trans3 R) v, tapply (tinverse t) v =
  SpecRound.s_moved (m3transpose (tR t)) (let m := tR t in let w := MathTypes.tt t in V3 (- s_dot (col1 m) w) (- s_dot (col2 m) w) (- s_dot (col3 m) w)) v.
Proof. intros [[a b c d e f g h i] [x y z]] [u v w]. unfold SpecRound.s_moved, s_dot, col1, col2, col3. unmath. apply V3_eq; ring. Qed.

Section Step.
  Context (rho m : R) (RR : 0 <= rho <= 1 / 100) (RM : rng m).
  Context (t : trans3 F64) (t' : trans3 R) (P : s_pose_of rho t t') (BT : s_bound m (rv (MathTypes.tt t))).

  Lemma fwd_close : forall v : vec3 F64, s_finv v -> s_bound (21 / 10 * m) (rv v) ->
    s_finv (tapply t v) /\ s_close ((10 * rho + 80 * uro) * m) (rv (tapply t v)) (tapply t' (rv v)).
  Proof.
    intros v FV BV. destruct P as [FM [FT [RG [ET CM]]]]. destruct (rng_eta m RM) as [MP [EM BM]].
    assert (B2 := rot_bound _ _ _ RG CM ltac:(lra)).
    destruct (apply_b t v 2 (21 / 10 * m) m FM FT FV B2 BV BT ltac:(lra) ltac:(lra)) as [F C]. split; auto.
    rewrite tapply_moved, ET. eapply close_le; [eapply close_trans; [exact C|apply (moved_close rho (21 / 10 * m) _ _ _ _ CM BV)]|].
    assert (0 <= rho * m) by nra. assert (0 <= uro * m) by (unfold uro; nra). nra.
  Qed.
  Lemma inv_close : forall v : vec3 F64, s_finv v -> s_bound (21 / 10 * m) (rv v) ->
    s_finv (tapply (tinverse t) v) /\ s_close ((10 * rho + 80 * uro) * m) (rv (tapply (tinverse t) v)) (tapply (tinverse t') (rv v)).
  Proof.
    intros v FV BV. destruct P as [FM [FT [RG [ET CM]]]]. destruct (rng_eta m RM) as [MP [EM BM]].
    assert (B2 := rot_bound _ _ _ RG CM ltac:(lra)).
    destruct (inverse_b t 2 m FM FT B2 BT ltac:(lra)) as [E [FI CI]]. cbv zeta in CI.
    assert (BI : s_bound (61 / 10 * m) (rv (MathTypes.tt (tinverse t)))).
    { eapply bound_le; [eapply close_bound; [exact CI|apply (col_bound _ _ m B2 BT)]|]. unfold uro in *. lra. }
    destruct (apply_b (tinverse t) v 2 (21 / 10 * m) (61 / 10 * m)) as [F C]; auto; [rewrite E; apply finm_t; auto|rewrite E; apply boundm_t; auto|lra|lra|].
    split; auto. rewrite tinv_moved. cbv zeta. rewrite ET. rewrite E in C.
    eapply close_le; [eapply close_trans; [exact C|eapply close_trans; [apply (moved_close rho (21 / 10 * m) _ _ _ _ (closem_t _ _ _ CM) BV)|]]|].
    - apply moved_shift. eapply close_trans; [exact CI|apply (col_close rho _ _ _ m CM BT)].
    - assert (0 <= rho * m) by nra. unfold uro in *. lra.
  Qed.

  Definition del : R := (20 * rho + 150 * uro) * m.
  Lemma del_pos : 0 <= del.
  Proof. destruct (rng_eta m RM) as [MP _]. unfold del. apply Rmult_le_pos; unfold uro; lra. Qed.
  (** errors grow by del from frame to frame *)
  Lemma inv_step : forall (v : vec3 F64) p E, s_finv v -> s_dist (rv v) p <= E -> E <= m / 100 -> s_norm p <= 2 * m ->
    s_finv (tapply (tinverse t) v) /\ s_dist (rv (tapply (tinverse t) v)) (tapply (tinverse t') p) <= E + del.
  Proof.
    intros v p E FV D EM N. destruct (rng_eta m RM) as [MP _]. pose proof (norm_dist (rv v) p) as ND.
    destruct (inv_close v FV) as [F C]. { eapply bound_le; [apply norm_comp|]. lra. } split; auto.
    assert (RG : rigid t') by apply P. eapply Rle_trans; [apply (dist_tri _ (tapply (tinverse t') (rv v)))|]. rewrite rigid_dist by (apply rigid_inverse; auto).
    apply close_dist in C; [|apply Rmult_le_pos; unfold uro; lra]. assert (0 <= rho * m) by nra. unfold del, uro in *. lra.
  Qed.
  Lemma fwd_step : forall (v : vec3 F64) p E, s_finv v -> s_dist (rv v) p <= E -> E <= m / 100 -> s_norm p <= 2 * m ->
    s_finv (tapply t v) /\ s_dist (rv (tapply t v)) (tapply t' p) <= E + del.
  Proof.
    intros v p E FV D EM N. destruct (rng_eta m RM) as [MP _]. pose proof (norm_dist (rv v) p) as ND.
    destruct (fwd_close v FV) as [F C]. { eapply bound_le; [apply norm_comp|]. lra. } split; auto.
    assert (RG : rigid t') by apply P. eapply Rle_trans; [apply (dist_tri _ (tapply t' (rv v)))|]. rewrite rigid_dist by auto.
    apply close_dist in C; [|apply Rmult_le_pos; unfold uro; lra]. assert (0 <= rho * m) by nra. unfold del, uro in *. lra.
  Qed.
End Step.
