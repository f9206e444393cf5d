(** Composite shapes on doubles, part 5: rays - the test of one box against a nearby exact ray, and one step into a child's frame *)
From Coq Require Import ZArith NArith List Bool Lia Reals Lra Psatz.
From Flocq Require Import Core BinarySingleNaN.
From Verif Require Import Num NumOrd MathTypes Outcome Mesh Box Composite Spec SpecComposite SpecRound SpecCompF P_Tac P_Math P_Rot P_Round P_Round2 P_Round3 P_OctF P_Libm P_F32 P_RayF P_Query4 P_CompF1 Props_RayF.
Import ListNotations.
Local Open Scope R_scope.
Local Notation fin := (is_finite (prec := 53) (emax := 1024)).

(** ** numbers representable as floats *)
Lemma single_cast : forall x, s_single x -> s_single (nf32 x) /\ B2R (nf32 x) = B2R x.
Proof.
  intros x [F [E B]]. change (rnd32 (B2R x) = B2R x) in E. destruct (nf32_spec x F) as [C D]; [rewrite E; auto|]. rewrite E in D. split; auto. split; auto. rewrite D. split; [exact E|auto].
Qed.
Lemma cast_single : forall y : F64, fin (nf32 y) = true -> s_single (nf32 y).
Proof.
  intros y F. split; auto. cbn [nf32 NumF] in *. destruct (is_finite (f64_to_f32 y)) eqn:G.
  - destruct (f32_to_f64_spec _ G) as [_ E]. rewrite E. split.
    + apply round_generic; auto with typeclass_instances. pose proof (generic_format_B2R 24 128 (f64_to_f32 y)) as H. exact H.
    + apply abs_B2R_lt_emax.
  - exfalso. destruct (f64_to_f32 y); discriminate.
Qed.
Lemma single_max : forall a b c x : F64, s_single a -> s_single b -> s_single c -> fin x = true -> B2R x = Rmax (B2R a) (Rmax (B2R b) (B2R c)) -> s_single x.
Proof.
  intros a b c x [_ A] [_ B] [_ C] F E. split; auto. rewrite E. unfold Rmax. repeat destruct Rle_dec; auto.
Qed.

(** ** the test of one box, for any pair of limits *)
Lemma ray_F : forall (b : box F64) (o d : vec3 F64) (t0 t1 d0 : F64),
  s_finv (b_min b) -> s_finv (b_max b) -> s_finv o -> s_finv d -> s_rangev d -> s_fin t0 -> s_fin t1 ->
  s_bound (10 ^ 20) (rv (b_min b)) -> s_bound (10 ^ 20) (rv (b_max b)) -> s_bound (10 ^ 20) (rv o) ->
  s_ordered (rv (b_min b)) (rv (b_max b)) -> s_steep (rv (vnormalized d)) ->
  exists lo hi, s_displaced (rv o) (rv (b_min b)) (rv (b_max b)) lo hi /\
  let inside t := s_in_box lo hi (s_ray_at (rv o) (rv (vnormalized d)) t) in
  exists hit dist, box_ray b (ray_make o d) t0 t1 d0 = (hit, dist) /\
  (hit = true <-> (exists t, B2R t0 < t /\ inside t) /\ (exists t, t < B2R t1 /\ inside t)) /\
  (hit = true -> s_single dist /\ B2R dist < B2R t1 /\ inside (B2R dist) /\ forall t, inside t -> B2R dist <= t).
Proof.
  intros b o d t0 t1 d0 [NX [NY NZ]] [XX [XY XZ]] [OX [OY OZ]] FD RD F0 F1 [BNX [BNY BNZ]] [BXX [BXY BXZ]] [BOX [BOY BOZ]] [ORX [ORY ORZ]] [SX [SY SZ]].
  destruct (normalized_b d FD RD) as [[UX [UY UZ]] CL].
  assert (NP : 0 < s_norm2 (rv d)). { destruct RD as [RD _]. pose proof (bpow_gt_0 radix2 (-900)). lra. }
  destruct (unit_le _ NP) as [UBX [UBY UBZ]]. destruct CL as [CX [CY CZ]].
  assert (G : forall x y, Rabs (x - y) <= 8 * uro -> Rabs y <= 1 -> Rabs x <= 2).
  { intros x y A B. apply Rabs_le. apply Rabs_le_inv in A, B. unfold uro in A. lra. }
  pose proof (G _ _ CX UBX) as HX. pose proof (G _ _ CY UBY) as HY. pose proof (G _ _ CZ UBZ) as HZ. clear G CX CY CZ UBX UBY UBZ NP FD RD.
  cbn [vx vy vz rv] in *.
  destruct (axis_F (vx (b_min b)) (vx (b_max b)) (vx o) (vx (vnormalized d))) as [FN0 [FF0 [NF0 [lx [hx [LX [DLX [DHX IX]]]]]]]]; auto.
  destruct (axis_F (vy (b_min b)) (vy (b_max b)) (vy o) (vy (vnormalized d))) as [FN1 [FF1 [NF1 [ly [hy [LY [DLY [DHY IY]]]]]]]]; auto.
  destruct (axis_F (vz (b_min b)) (vz (b_max b)) (vz o) (vz (vnormalized d))) as [FN2 [FF2 [NF2 [lz [hz [LZ [DLZ [DHZ IZ]]]]]]]]; auto.
  exists (V3 lx ly lz), (V3 hx hy hz). split; [repeat split; auto|].
  set (inside := fun t => s_in_box (V3 lx ly lz) (V3 hx hy hz) (s_ray_at (rv o) (rv (vnormalized d)) t)).
  change (exists hit dist, box_ray b (ray_make o d) t0 t1 d0 = (hit, dist) /\
    (hit = true <-> (exists t, B2R t0 < t /\ inside t) /\ (exists t, t < B2R t1 /\ inside t)) /\
    (hit = true -> s_single dist /\ B2R dist < B2R t1 /\ inside (B2R dist) /\ forall t, inside t -> B2R dist <= t)).
  assert (IN : forall t, inside t <-> (lx <= B2R (vx o) + t * B2R (vx (vnormalized d)) <= hx) /\ (ly <= B2R (vy o) + t * B2R (vy (vnormalized d)) <= hy) /\ (lz <= B2R (vz o) + t * B2R (vz (vnormalized d)) <= hz)) by reflexivity.
  clearbody inside.
  assert (BE : box_ray b (ray_make o d) t0 t1 d0 =
    let w := vnormalized d in
    let a0 := tau (if nltb (vx w) n0 then vx (b_max b) else vx (b_min b)) (vx o) (vx w) in
    let z0 := tau (if negb (nltb (vx w) n0) then vx (b_max b) else vx (b_min b)) (vx o) (vx w) in
    let a1 := tau (if nltb (vy w) n0 then vy (b_max b) else vy (b_min b)) (vy o) (vy w) in
    let z1 := tau (if negb (nltb (vy w) n0) then vy (b_max b) else vy (b_min b)) (vy o) (vy w) in
    let a2 := tau (if nltb (vz w) n0 then vz (b_max b) else vz (b_min b)) (vz o) (vz w) in
    let z2 := tau (if negb (nltb (vz w) n0) then vz (b_max b) else vz (b_min b)) (vz o) (vz w) in
    (if nltb z1 a0 || nltb z0 a1 then (false, d0)
    else if nltb z2 (nmax a1 a0) || nltb (nmin z1 z0) a2 then (false, d0)
    else (nltb t0 (nmin z2 (nmin z1 z0)) && nltb (nmax a2 (nmax a1 a0)) t1, nmax a2 (nmax a1 a0)))%bool).
  { unfold box_ray, ray_make, bnd, tau. cbv zeta. cbn [r_o r_d r_inv r_s0 r_s1 r_s2 vx vy vz].
    destruct (nltb (vx (vnormalized d)) n0), (nltb (vy (vnormalized d)) n0), (nltb (vz (vnormalized d)) n0); reflexivity. }
  rewrite BE. clear BE. cbv zeta in *.
  assert (ST : forall x y z : F64, fin (tau x y z) = true -> s_single (tau x y z)) by (intros x y z H; apply cast_single; exact H).
  pose proof (ST _ _ _ FN0) as SA0. pose proof (ST _ _ _ FN1) as SA1. pose proof (ST _ _ _ FN2) as SA2. clear ST.
  match goal with |- exists hit dist, (if nltb ?z1 ?a0 || nltb ?z0 ?a1 then _ else if nltb ?z2 _ || nltb _ ?a2 then _ else _)%bool = _ /\ _ =>
    set (A0 := a0) in *; set (Z0 := z0) in *; set (A1 := a1) in *; set (Z1 := z1) in *; set (A2 := a2) in *; set (Z2 := z2) in * end.
  clearbody A0 Z0 A1 Z1 A2 Z2.
  pose proof (slabs_F A0 Z0 A1 Z1 A2 Z2 t0 t1 d0 FN0 FF0 FN1 FF1 FN2 FF2 F0 F1 NF0 NF1 NF2) as S. cbv zeta in S.
  match type of S with (_ /\ fst ?r = _ /\ _) \/ _ => set (res := r) in *; clearbody res end.
  assert (IB : forall t, inside t <-> Rmax (B2R A2) (Rmax (B2R A1) (B2R A0)) <= t <= Rmin (B2R Z2) (Rmin (B2R Z1) (B2R Z0))).
  { intro t. rewrite IN, IX, IY, IZ. clear. unfold Rmax, Rmin. repeat destruct Rle_dec; lra. }
  assert (SM : forall x : F64, fin x = true -> B2R x = Rmax (B2R A2) (Rmax (B2R A1) (B2R A0)) -> s_single x) by (intros x FX; apply single_max; auto).
  set (lo := Rmax (B2R A2) (Rmax (B2R A1) (B2R A0))) in *. set (hi := Rmin (B2R Z2) (Rmin (B2R Z1) (B2R Z0))) in *. clearbody lo hi.
  destruct res as [hit dist]. cbn [fst snd] in S. exists hit, dist. split; [reflexivity|]. destruct S as [[A [-> [FDI ED]]]|[A E]].
  - rewrite andb_true_iff, !Rltb_true. split.
    + split.
      * intros [B C]. split; [exists hi|exists lo]; (split; [lra|]; apply IB; lra).
      * intros [[t [B C]] [t' [B' C']]]. apply IB in C, C'. lra.
    + intros [B C]. split; [apply SM; auto|]. rewrite ED. split; [exact C|]. split; [apply IB; lra|]. intros t H. apply IB in H. lra.
  - assert (hit = false) by congruence. subst hit. split; [|discriminate]. split; [discriminate|]. intros [[t [B C]] _]. apply IB in C. lra.
Qed.

(** ** the same in terms of a nearby exact ray p + s u *)
Definition rsize (m : R) : Prop := bpow radix2 (-100) <= m <= 10 ^ 19.
Lemma rsize_rng : forall m, rsize m -> rng m.
Proof.
  intros m [A B]. split; [apply Rle_trans with (bpow radix2 (-100)); [apply bpow_le; lia|auto]|]. apply Rle_trans with (bpow radix2 127); [|apply bpow_le; lia].
  pose proof c127. apply Rle_trans with (10 ^ 33); [|auto]. apply Rle_trans with (10 ^ 19); [auto|]. apply Rle_pow; [lra|lia].
Qed.
Lemma far_comp : forall u : vec3 R, s_norm2 u = 1 -> 57 / 100 <= Rabs (vx u) \/ 57 / 100 <= Rabs (vy u) \/ 57 / 100 <= Rabs (vz u).
Proof.
  intros [x y z] H. unfold s_norm2, s_dot in H. cbn [vx vy vz] in *.
  destruct (Rle_dec (57 / 100) (Rabs x)) as [|A]; auto. destruct (Rle_dec (57 / 100) (Rabs y)) as [|B]; auto. destruct (Rle_dec (57 / 100) (Rabs z)) as [|C]; auto.
  exfalso. apply Rnot_le_lt in A, B, C. apply Rabs_def2 in A, B, C. assert (x * x <= 57 / 100 * (57 / 100)) by nra. assert (y * y <= 57 / 100 * (57 / 100)) by nra. assert (z * z <= 57 / 100 * (57 / 100)) by nra. lra.
Qed.
Lemma s_bound_1 : forall m o w s x, 0 < m -> 569 / 1000 <= Rabs w -> Rabs o <= 22 / 10 * m -> x = o + s * w -> Rabs x <= 12 / 10 * m -> Rabs s <= 7 * m.
Proof.
  intros m o w s x MP W O E X. assert (H : Rabs (s * w) <= 34 / 10 * m). { replace (s * w) with (x - o) by lra. apply Rabs_le_inv in O, X. apply Rabs_le. lra. }
  rewrite Rabs_mult in H. pose proof (Rabs_pos s). destruct (Rle_dec (Rabs s) (7 * m)) as [|N]; auto. exfalso. apply Rnot_le_lt in N. nra.
Qed.
Section Near.
  Context (m : R) (RS : rsize m).
  Definition slack : R := m / 1048576.

  Lemma box_near : forall (b : box F64) (o d : vec3 F64) (t0 t1 d0 : F64) p u E Eu,
    s_finv (b_min b) -> s_finv (b_max b) -> s_finv o -> s_finv d -> s_rangev d -> s_fin t0 -> s_fin t1 ->
    s_bound (11 / 10 * m) (rv (b_min b)) -> s_bound (11 / 10 * m) (rv (b_max b)) -> s_norm p <= 2 * m ->
    s_ordered (rv (b_min b)) (rv (b_max b)) -> s_norm2 u = 1 -> s_skew (2 / 10 ^ 9) u ->
    s_dist (rv o) p <= E -> s_dist (rv (vnormalized d)) u <= Eu -> E <= m / 100 -> Eu <= 1 / 10 ^ 9 ->
    let near e s := s_grown e (rv (b_min b)) (rv (b_max b)) (s_ray_at p u s) in
    forall a, E + 7 * m * Eu + slack <= a ->
    exists hit dist, box_ray b (ray_make o d) t0 t1 d0 = (hit, dist) /\
    (hit = true -> s_single dist /\ B2R dist < B2R t1 /\ (exists s, B2R t0 < s /\ near a s) /\ near a (B2R dist)) /\
    (forall s0 s, B2R t0 < s0 -> near (- a) s0 -> near (- a) s -> s < B2R t1 -> hit = true /\ B2R dist <= s).
  Proof.
    intros b o d t0 t1 d0 p u E Eu FN FX FO FD RD F0 F1 BN BX NP OR U1 SK DO DU EM EU near a HA.
    destruct (rng_eta m (rsize_rng m RS)) as [MP _]. destruct RS as [ML MH].
    pose proof (dist_pos (rv o) p) as PO. pose proof (dist_pos (rv (vnormalized d)) u) as PU. pose proof (norm_dist (rv o) p) as ND.
    assert (BO : s_bound (21 / 10 * m) (rv o)) by (eapply bound_le; [apply norm_comp|lra]).
    assert (BP : s_bound (2 * m) p) by (eapply bound_le; [apply norm_comp|lra]).
    assert (E0 : 0 <= E) by lra. assert (EU0 : 0 <= Eu) by lra. clear PO PU.
    apply dist_comp in DO, DU. destruct DO as [O1 [O2 O3]], DU as [D1 [D2 D3]].
    assert (ST : s_steep (rv (vnormalized d))).
    { assert (G : forall x y, Rabs (x - y) <= Eu -> 2 / 10 ^ 9 <= Rabs y -> 1 / 10 ^ 9 <= Rabs x).
      { intros x y X Y. pose proof (Rabs_triang_inv y (y - x)) as T. replace (y - (y - x)) with x in T by ring. rewrite (Rabs_minus_sym y x) in T. lra. }
      destruct SK as [S1 [S2 S3]]. repeat split; eapply G; eauto. }
    destruct (ray_F b o d t0 t1 d0) as [lo [hi [DI [hit [dist [ER [H1 H2]]]]]]]; auto; [eapply bound_le; eauto; lra|eapply bound_le; eauto; lra|eapply bound_le; eauto; lra|].
    exists hit, dist. split; auto.
    assert (WE : bpow radix2 (-148) <= / 16777216 * m).
    { replace (bpow radix2 (-148)) with (bpow radix2 (-24) * (bpow radix2 (-24) * bpow radix2 (-100))) by (rewrite <- !bpow_plus; reflexivity).
      rewrite c24. pose proof (bpow_gt_0 radix2 (-100)). nra. }
    assert (G : forall x b o, Rabs (x - b) <= / 8388608 * Rabs (b - o) + bpow radix2 (-148) -> Rabs b <= 11 / 10 * m -> Rabs o <= 21 / 10 * m -> b - slack <= x <= b + slack).
    { intros x b' o' P B O. assert (Rabs (b' - o') <= 32 / 10 * m) by (apply Rabs_le_inv in B, O; apply Rabs_le; lra).
      assert (Q : Rabs (x - b') <= slack) by (unfold slack; lra). apply Rabs_le_inv in Q. lra. }
    destruct DI as [G1 [G2 [G3 [G4 [G5 G6]]]]]. destruct BN as [N1 [N2 N3]], BX as [X1 [X2 X3]], BO as [P1 [P2 P3]], BP as [Q1 [Q2 Q3]].
    apply G in G1, G2, G3, G4, G5, G6; auto. clear G.
    assert (SL : 0 < slack /\ slack <= m / 100) by (unfold slack; lra). destruct SL as [SL0 SL].
    apply Rabs_le_inv in N1, N2, N3, X1, X2, X3.
    set (w := rv (vnormalized d)) in *. clearbody w.
    assert (GEN : forall s x y w' u', Rabs (x - y) <= E -> Rabs (w' - u') <= Eu -> Rabs s <= 7 * m -> Rabs (x + s * w' - (y + s * u')) <= a - slack).
    { intros s x y w' u' A B C. replace (x + s * w' - (y + s * u')) with ((x - y) + s * (w' - u')) by ring. eapply Rle_trans; [apply Rabs_triang|].
      assert (Rabs (s * (w' - u')) <= 7 * m * Eu) by (rewrite Rabs_mult; apply Rmult_le_compat; auto using Rabs_pos). lra. }
    assert (CL : forall s, Rabs s <= 7 * m -> (Rabs (vx (s_ray_at (rv o) w s) - vx (s_ray_at p u s)) <= a - slack) /\ (Rabs (vy (s_ray_at (rv o) w s) - vy (s_ray_at p u s)) <= a - slack) /\ (Rabs (vz (s_ray_at (rv o) w s) - vz (s_ray_at p u s)) <= a - slack)).
    { intros s S. unfold s_ray_at. cbn [vx vy vz]. auto. }
    assert (FC : forall y w' : R, 57 / 100 <= Rabs y -> Rabs (w' - y) <= Eu -> 569 / 1000 <= Rabs w').
    { intros y w' Y W. pose proof (Rabs_triang_inv y (y - w')) as T. replace (y - (y - w')) with w' in T by ring. rewrite (Rabs_minus_sym y w') in T. lra. }
    assert (IN : forall s, s_in_box lo hi (s_ray_at (rv o) w s) -> near a s).
    { intros s I. pose proof I as [I1 [I2 I3]]. unfold s_ray_at in I1, I2, I3. cbn [vx vy vz] in I1, I2, I3.
      assert (S : Rabs s <= 7 * m).
      { destruct (far_comp u U1) as [C|[C|C]].
        - apply (s_bound_1 m (vx (rv o)) (vx w) s _ MP (FC _ _ C D1) ltac:(lra) eq_refl). apply Rabs_le; lra.
        - apply (s_bound_1 m (vy (rv o)) (vy w) s _ MP (FC _ _ C D2) ltac:(lra) eq_refl). apply Rabs_le; lra.
        - apply (s_bound_1 m (vz (rv o)) (vz w) s _ MP (FC _ _ C D3) ltac:(lra) eq_refl). apply Rabs_le; lra. }
      destruct (CL s S) as [C1 [C2 C3]]. apply Rabs_le_inv in C1, C2, C3. unfold near, s_grown, s_in_box in *. cbn [vx vy vz] in *. lra. }
    assert (OUT : forall s, near (- a) s -> s_in_box lo hi (s_ray_at (rv o) w s)).
    { intros s I. pose proof I as [I1 [I2 I3]]. unfold s_ray_at in I1, I2, I3. cbn [vx vy vz] in I1, I2, I3.
      assert (AP : 0 <= a). { assert (0 <= 7 * m * Eu) by (apply Rmult_le_pos; lra). lra. }
      assert (S : Rabs s <= 7 * m).
      { destruct (far_comp u U1) as [C|[C|C]].
        - apply (s_bound_1 m (vx p) (vx u) s _ MP ltac:(lra) ltac:(lra) eq_refl). apply Rabs_le; lra.
        - apply (s_bound_1 m (vy p) (vy u) s _ MP ltac:(lra) ltac:(lra) eq_refl). apply Rabs_le; lra.
        - apply (s_bound_1 m (vz p) (vz u) s _ MP ltac:(lra) ltac:(lra) eq_refl). apply Rabs_le; lra. }
      destruct (CL s S) as [C1 [C2 C3]]. apply Rabs_le_inv in C1, C2, C3. unfold near, s_grown, s_in_box in *. cbn [vx vy vz] in *. lra. }
    split.
    - intros HT. destruct (H2 HT) as [S [LT [I M]]]. destruct (proj1 H1 HT) as [[s [L0 I0]] _]. split; auto. split; auto. split; [exists s|]; auto.
    - intros s0 s L0 I0 I L1. assert (HT : hit = true). { apply H1. split; [exists s0|exists s]; auto. } split; auto. apply (H2 HT). auto.
  Qed.
End Near.

(** ** one step of a direction into a child's frame *)
Lemma dir_apply : forall (M : mat3 R) v, tapply (T3 M (V3 0 0 0)) v = m3mulv M v.
Proof. intros [a b c d e f g h i] [x y z]. unmath. apply V3_eq; ring. Qed.
Lemma dir_moved : forall (M : mat3 R) v, m3mulv M v = SpecRound.s_moved M (V3 0 0 0) v.
Proof. intros [a b c d e f g h i] [x y z]. unfold SpecRound.s_moved, s_dot. unmath. apply V3_eq; ring. Qed.
Lemma dir_dist : forall (t : trans3 R) a b, rigid t -> s_dist (m3mulv (tR t) a) (m3mulv (tR t) b) = s_dist a b.
Proof. intros t a b H. rewrite <- !dir_apply. apply rigid_dist. exact H. Qed.
Lemma dir_norm : forall (t : trans3 R) a, rigid t -> s_norm (m3mulv (tR t) a) = s_norm a.
Proof.
  intros t a H. rewrite !norm_zero. rewrite <- (dir_dist t a (V3 0 0 0)) by auto. f_equal. destruct (tR t) as [x1 x2 x3 x4 x5 x6 x7 x8 x9]. unmath. apply V3_eq; ring.
Qed.
Lemma norm_unit : forall v, 0 < s_norm2 v -> s_norm (SpecRound.s_unit v) = 1.
Proof.
  intros v P. unfold s_norm. rewrite <- sqrt_1. f_equal. unfold SpecRound.s_unit. assert (S : 0 < sqrt (s_norm2 v)) by (apply sqrt_lt_R0; auto).
  assert (Q : sqrt (s_norm2 v) * sqrt (s_norm2 v) = s_norm2 v) by (apply sqrt_sqrt; lra). unfold s_norm2, s_dot in *. cbn [vx vy vz].
  set (n := sqrt _) in *. clearbody n. replace 1 with ((n * n) / (n * n)) by (field; lra). rewrite Q at 1. field. lra.
Qed.
Lemma dist_unit : forall v, 0 < s_norm2 v -> s_dist (SpecRound.s_unit v) v = Rabs (s_norm v - 1).
Proof.
  intros v P. unfold s_dist. rewrite <- sqrt_Rsqr_abs. f_equal. unfold s_dist2, SpecRound.s_unit, Rsqr. assert (S : 0 < sqrt (s_norm2 v)) by (apply sqrt_lt_R0; auto).
  assert (Q : sqrt (s_norm2 v) * sqrt (s_norm2 v) = s_norm2 v) by (apply sqrt_sqrt; lra). change (s_norm v) with (sqrt (s_norm2 v)). cbn [vx vy vz].
  set (n := sqrt _) in *. clearbody n. unfold s_norm2, s_dot in Q.
  replace ((vx v / n - vx v) ^ 2 + (vy v / n - vy v) ^ 2 + (vz v / n - vz v) ^ 2) with ((vx v * vx v + vy v * vy v + vz v * vz v) * ((1 / n - 1) * (1 / n - 1))) by (field; lra).
  rewrite <- Q. field. lra.
Qed.
Section Dir.
  Context (rho : R) (RR : 0 <= rho <= 1 / 100).
  Definition ddel : R := 11 * rho + 160 * uro.
  Lemma dir_step : forall (t : trans3 F64) (t' : trans3 R) (d : vec3 F64) u Eu, s_pose_of rho t t' -> s_finv d -> s_rangev d -> s_dist (rv (vnormalized d)) u <= Eu ->
    let d' := m3mulv (tR (tinverse t)) (vnormalized d) in
    s_finv d' /\ s_rangev d' /\ s_dist (rv (vnormalized d')) (m3mulv (tR (tinverse t')) u) <= Eu + ddel.
  Proof.
    intros t t' d u Eu [FM [FT [RG [ET CM]]]] FD RD DU d'.
    destruct (normalized_b d FD RD) as [FW CW]. apply close_dist in CW; [|unfold uro; lra].
    assert (NP : 0 < s_norm2 (rv d)). { destruct RD as [RD _]. pose proof (bpow_gt_0 radix2 (-900)). lra. }
    pose proof (norm_unit _ NP) as NU. set (w := vnormalized d) in *.
    assert (NW : Rabs (s_norm (rv w) - 1) <= 14 * uro).
    { pose proof (norm_dist (rv w) (SpecRound.s_unit (rv d))) as A. pose proof (norm_dist (SpecRound.s_unit (rv d)) (rv w)) as B. rewrite (dist_sym (SpecRound.s_unit _)) in B. apply Rabs_le. lra. }
    pose proof (Rabs_le_inv _ _ NW) as NW'.
    assert (BW : s_bound (101 / 100) (rv w)) by (eapply bound_le; [apply norm_comp|unfold uro in *; lra]).
    assert (BM := boundm_t _ _ (rot_bound _ _ _ RG CM ltac:(lra))).
    assert (CT := closem_t _ _ _ CM). assert (FMT := finm_t _ FM).
    change (tR (tinverse t)) with (m3transpose (tR t)) in d'. 
    assert (BIG : 2 * 2 <= big / 8). { unfold big. apply Rle_trans with (bpow radix2 10 / 8); [change (bpow radix2 10) with 1024; lra|]. apply Rmult_le_compat_r; [lra|apply bpow_le; lia]. }
    assert (ETA : 6 * eta <= uro). { unfold eta. apply Rle_trans with (bpow radix2 3 * bpow radix2 (-900)). { change (bpow radix2 3) with 8. apply Rmult_le_compat; [lra|apply bpow_ge_0|lra|apply bpow_le; lia]. } rewrite <- bpow_plus. apply Rle_trans with (bpow radix2 (-60)); [apply bpow_le; lia|]. unfold uro. cbn. lra. }
    assert (R1 : s_finv d' /\ s_close (37 * uro) (rv d') (SpecRound.s_moved (rm (m3transpose (tR t))) (V3 0 0 0) (rv w))).
    { clear - FMT FW BM BW BIG ETA. destruct BW as [W1 [W2 W3]], FW as [G1 [G2 G3]]. unfold d'. clearbody w. clear d'. destruct (m3transpose (tR t)) as [a1 a2 a3 a4 a5 a6 a7 a8 a9].
      destruct BM as [[A1 [A2 A3]] [[B1 [B2 B3]] [C1 [C2 C3]]]], FMT as [[X1 [X2 X3]] [[Y1 [Y2 Y3]] [Z1 [Z2 Z3]]]]. cbn in A1, A2, A3, B1, B2, B3, C1, C2, C3, W1, W2, W3, X1, X2, X3, Y1, Y2, Y3, Z1, Z2, Z3. unfold s_fin in *.
      assert (W1' : Rabs (B2R (vx w)) <= 2) by lra. assert (W2' : Rabs (B2R (vy w)) <= 2) by lra. assert (W3' : Rabs (B2R (vz w)) <= 2) by lra.
      destruct (dot3_b a1 a2 a3 (vx w) (vy w) (vz w) 2 2) as [P1 Q1]; auto. destruct (dot3_b a4 a5 a6 (vx w) (vy w) (vz w) 2 2) as [P2 Q2]; auto. destruct (dot3_b a7 a8 a9 (vx w) (vy w) (vz w) 2 2) as [P3 Q3]; auto.
      split; [split; [exact P1|split; [exact P2|exact P3]]|]. unfold s_close, SpecRound.s_moved, s_dot. cbn [vx vy vz rv rm m3mulv MathTypes.mxx MathTypes.mxy MathTypes.mxz MathTypes.myx MathTypes.myy MathTypes.myz MathTypes.mzx MathTypes.mzy MathTypes.mzz].
      rewrite !Rplus_0_r. unfold dot3 in *. split; [|split]; (eapply Rle_trans; [eassumption|lra]). }
    destruct R1 as [FD' C1]. split; auto.
    assert (C2 := close_trans _ _ _ _ _ C1 (moved_close rho (101 / 100) _ _ (V3 0 0 0) _ CT BW)). rewrite <- dir_moved in C2.
    change (m3transpose (tR t')) with (tR (tinverse t')) in C2. assert (RI := rigid_inverse t' RG).
    apply close_dist in C2; [|unfold uro; lra]. set (z := m3mulv (tR (tinverse t')) (rv w)) in *.
    assert (NZ : s_norm z = s_norm (rv w)) by (apply dir_norm; auto).
    assert (ND : Rabs (s_norm (rv d') - 1) <= 14 * uro + 7 / 4 * (37 * uro + 3 * rho * (101 / 100))).
    { pose proof (norm_dist (rv d') z) as A. pose proof (norm_dist z (rv d')) as B. rewrite (dist_sym z) in B. apply Rabs_le. lra. }
    pose proof (Rabs_le_inv _ _ ND) as ND'.
    assert (N2 : s_norm (rv d') * s_norm (rv d') = s_norm2 (rv d')) by (apply sqrt_sqrt, norm2_pos).
    assert (NB : 9 / 10 <= s_norm (rv d') <= 11 / 10) by (unfold uro in ND'; lra).
    assert (RD' : s_rangev d').
    { unfold s_rangev. rewrite <- N2. split; [apply Rle_trans with (bpow radix2 (-1)); [apply bpow_le; lia|change (bpow radix2 (-1)) with (/ 2); nra]|apply Rle_trans with (bpow radix2 1); [change (bpow radix2 1) with 2; nra|apply bpow_le; lia]]. }
    split; auto. destruct (normalized_b d' FD' RD') as [_ CW']. apply close_dist in CW'; [|unfold uro; lra].
    assert (NP' : 0 < s_norm2 (rv d')) by (rewrite <- N2; nra).
    pose proof (dist_tri (rv (vnormalized d')) (SpecRound.s_unit (rv d')) (rv d')) as T1. rewrite (dist_unit _ NP') in T1.
    pose proof (dist_tri (rv (vnormalized d')) (rv d') z) as T2. pose proof (dist_tri (rv (vnormalized d')) z (m3mulv (tR (tinverse t')) u)) as T3.
    replace (s_dist z (m3mulv (tR (tinverse t')) u)) with (s_dist (rv w) u) in T3 by (symmetry; apply dir_dist; auto). unfold ddel. lra.
  Qed.
End Dir.
