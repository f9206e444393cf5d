(** * C98: the ray test of a box in the arithmetic of the code (doubles, slab parameters rounded to floats) *)
From Coq Require Import ZArith Reals Lra Lia Bool.
From Flocq Require Import Core BinarySingleNaN.
From Verif Require Import Num NumOrd MathTypes Mesh Box Spec SpecRound P_Tac P_Math P_Round P_Round3 P_OctF P_RayF.
Local Open Scope R_scope.

(** the bounds [lo], [hi] are those of [b] up to 2^-23 of their distance to the origin of the ray *)
Definition s_displaced (o mn mx lo hi : vec3 R) : Prop :=
  let d (x b o : R) := Rabs (x - b) <= / 8388608 * Rabs (b - o) + bpow radix2 (-148) in
  d (vx lo) (vx mn) (vx o) /\ d (vy lo) (vy mn) (vy o) /\ d (vz lo) (vz mn) (vz o) /\
  d (vx hi) (vx mx) (vx o) /\ d (vy hi) (vy mx) (vy o) /\ d (vz hi) (vz mx) (vz o).
(** no component of the direction is below 1e-9 *)
Definition s_steep (u : vec3 R) : Prop := 1 / 10 ^ 9 <= Rabs (vx u) /\ 1 / 10 ^ 9 <= Rabs (vy u) /\ 1 / 10 ^ 9 <= Rabs (vz u).

Lemma unit_le : forall v : vec3 R, 0 < s_norm2 v -> Rabs (vx (SpecRound.s_unit v)) <= 1 /\ Rabs (vy (SpecRound.s_unit v)) <= 1 /\ Rabs (vz (SpecRound.s_unit v)) <= 1.
Proof.
  intros v P. unfold SpecRound.s_unit. cbn [vx vy vz]. assert (S : 0 < sqrt (s_norm2 v)) by (apply sqrt_lt_R0; auto).
  assert (G : forall x, x * x <= s_norm2 v -> Rabs (x / sqrt (s_norm2 v)) <= 1).
  { intros x H. unfold Rdiv. rewrite Rabs_mult, (Rabs_right (/ _)) by (left; apply Rinv_0_lt_compat; auto).
    apply Rmult_le_reg_r with (sqrt (s_norm2 v)); auto. rewrite Rmult_assoc, Rinv_l, Rmult_1_r, Rmult_1_l by lra.
    rewrite <- sqrt_Rsqr_abs. apply sqrt_le_1; [unfold Rsqr; nra|lra|exact H]. }
  repeat split; apply G; unfold s_norm2, s_dot; nra.
Qed.

(** C98: a ray test on doubles gives exactly the answer and the entry distance of the ray with the stored origin and direction on a box
    whose faces are displaced by at most 2^-23 of their distance to the origin (plus 2^-148); the stored direction is the unit direction
    up to 8 * 2^-53 *)
Theorem C98_ray : forall (b : box F64) (o d : vec3 F64) (t0 t1 d0 : F64),
  s_finv (b_min b) -> s_finv (b_max b) -> s_finv o -> s_finv d -> s_rangev d -> s_fin t0 -> s_fin t1 -> B2R t0 < B2R t1 ->
  s_bound (10 ^ 20) (rv (b_min b)) -> s_bound (10 ^ 20) (rv (b_max b)) -> s_bound (10 ^ 20) (rv o) ->
  s_ordered (rv (b_min b)) (rv (b_max b)) -> 
  let u := rv (r_d (ray_make o d)) in s_steep u ->
  s_close (8 * uro) u (SpecRound.s_unit (rv d)) /\
  exists lo hi, s_ordered lo hi /\ s_displaced (rv o) (rv (b_min b)) (rv (b_max b)) lo hi /\
  let inside t := s_in_box lo hi (s_ray_at (rv o) u t) in
  let (hit, dist) := box_ray b (ray_make o d) t0 t1 d0 in
  (hit = true <-> exists t, B2R t0 < t < B2R t1 /\ inside t) /\
  (hit = true -> s_fin dist /\ inside (B2R dist) /\ forall t, inside t -> B2R dist <= t).
Proof.
  intros b o d t0 t1 d0 [NX [NY NZ]] [XX [XY XZ]] [OX [OY OZ]] FD RD F0 F1 L [BNX [BNY BNZ]] [BXX [BXY BXZ]] [BOX [BOY BOZ]] [ORX [ORY ORZ]] u [SX [SY SZ]].
  destruct (normalized_b d FD RD) as [[UX [UY UZ]] CL]. change (rv (vnormalized d)) with u in CL. split; [exact CL|].
  assert (NP : 0 < s_norm2 (rv d)). { destruct RD as [RD _]. pose proof (bpow_gt_0 radix2 (-900)). lra. }
  destruct (unit_le _ NP) as [UBX [UBY UBZ]]. destruct CL as [CX [CY CZ]].
  assert (G : forall x y, Rabs (x - y) <= 8 * uro -> Rabs y <= 1 -> Rabs x <= 2).
  { intros x y A B. apply Rabs_le. apply Rabs_le_inv in A, B. unfold uro in A. lra. }
  pose proof (G _ _ CX UBX) as HX. pose proof (G _ _ CY UBY) as HY. pose proof (G _ _ CZ UBZ) as HZ. clear G CX CY CZ UBX UBY UBZ NP FD RD.
  cbn [vx vy vz rv] in *. unfold u in SX, SY, SZ, HX, HY, HZ. cbn [vx vy vz rv r_d ray_make] in SX, SY, SZ, HX, HY, HZ.
  destruct (axis_F (vx (b_min b)) (vx (b_max b)) (vx o) (vx (vnormalized d))) as [FN0 [FF0 [NF0 [lx [hx [LX [DLX [DHX IX]]]]]]]]; auto.
  destruct (axis_F (vy (b_min b)) (vy (b_max b)) (vy o) (vy (vnormalized d))) as [FN1 [FF1 [NF1 [ly [hy [LY [DLY [DHY IY]]]]]]]]; auto.
  destruct (axis_F (vz (b_min b)) (vz (b_max b)) (vz o) (vz (vnormalized d))) as [FN2 [FF2 [NF2 [lz [hz [LZ [DLZ [DHZ IZ]]]]]]]]; auto.
  exists (V3 lx ly lz), (V3 hx hy hz). split; [repeat split; auto|]. split; [repeat split; auto|].
  set (inside := fun t => s_in_box (V3 lx ly lz) (V3 hx hy hz) (s_ray_at (rv o) u t)).
  change (let (hit, dist) := box_ray b (ray_make o d) t0 t1 d0 in (hit = true <-> exists t, B2R t0 < t < B2R t1 /\ inside t) /\
    (hit = true -> s_fin dist /\ inside (B2R dist) /\ forall t, inside t -> B2R dist <= t)).
  assert (IN : forall t, inside t <-> (lx <= B2R (vx o) + t * B2R (vx (vnormalized d)) <= hx) /\ (ly <= B2R (vy o) + t * B2R (vy (vnormalized d)) <= hy) /\ (lz <= B2R (vz o) + t * B2R (vz (vnormalized d)) <= hz)) by reflexivity.
  clearbody inside. clear u.
  assert (BE : box_ray b (ray_make o d) t0 t1 d0 =
    let w := vnormalized d in
    let a0 := tau (if nltb (vx w) n0 then vx (b_max b) else vx (b_min b)) (vx o) (vx w) in
    let z0 := tau (if negb (nltb (vx w) n0) then vx (b_max b) else vx (b_min b)) (vx o) (vx w) in
    let a1 := tau (if nltb (vy w) n0 then vy (b_max b) else vy (b_min b)) (vy o) (vy w) in
    let z1 := tau (if negb (nltb (vy w) n0) then vy (b_max b) else vy (b_min b)) (vy o) (vy w) in
    let a2 := tau (if nltb (vz w) n0 then vz (b_max b) else vz (b_min b)) (vz o) (vz w) in
    let z2 := tau (if negb (nltb (vz w) n0) then vz (b_max b) else vz (b_min b)) (vz o) (vz w) in
    (if nltb z1 a0 || nltb z0 a1 then (false, d0)
    else if nltb z2 (nmax a1 a0) || nltb (nmin z1 z0) a2 then (false, d0)
    else (nltb t0 (nmin z2 (nmin z1 z0)) && nltb (nmax a2 (nmax a1 a0)) t1, nmax a2 (nmax a1 a0)))%bool).
  { unfold box_ray, ray_make, bnd, tau. cbv zeta. cbn [r_o r_d r_inv r_s0 r_s1 r_s2 vx vy vz].
    destruct (nltb (vx (vnormalized d)) n0), (nltb (vy (vnormalized d)) n0), (nltb (vz (vnormalized d)) n0); reflexivity. }
  rewrite BE. clear BE. cbv zeta in *.
  match goal with |- let (_, _) := (if nltb ?z1 ?a0 || nltb ?z0 ?a1 then _ else if nltb ?z2 _ || nltb _ ?a2 then _ else _)%bool in _ =>
    set (A0 := a0) in *; set (Z0 := z0) in *; set (A1 := a1) in *; set (Z1 := z1) in *; set (A2 := a2) in *; set (Z2 := z2) in * end.
  clearbody A0 Z0 A1 Z1 A2 Z2.
  pose proof (slabs_F A0 Z0 A1 Z1 A2 Z2 t0 t1 d0 FN0 FF0 FN1 FF1 FN2 FF2 F0 F1 NF0 NF1 NF2) as S. cbv zeta in S.
  match type of S with (_ /\ fst ?r = _ /\ _) \/ _ => set (res := r) in *; clearbody res end.
  assert (IB : forall t, inside t <-> Rmax (B2R A2) (Rmax (B2R A1) (B2R A0)) <= t <= Rmin (B2R Z2) (Rmin (B2R Z1) (B2R Z0))).
  { intro t. rewrite IN, IX, IY, IZ. clear. unfold Rmax, Rmin. repeat destruct Rle_dec; lra. }
  set (lo := Rmax (B2R A2) (Rmax (B2R A1) (B2R A0))) in *. set (hi := Rmin (B2R Z2) (Rmin (B2R Z1) (B2R Z0))) in *. clearbody lo hi.
  destruct res as [hit dist]. cbn [fst snd] in S. destruct S as [[A [-> [FDI ED]]]|[A E]].
  - split.
    + rewrite andb_true_iff, !Rltb_true. split.
      * intros [B C]. destruct (Rlt_dec (B2R t0) lo) as [D|D].
        { exists lo. split; [lra|]. apply IB. lra. }
        { destruct (Rlt_dec hi (B2R t1)) as [H|H].
          - exists hi. split; [lra|]. apply IB. lra.
          - exists ((B2R t0 + B2R t1)/2). split; [lra|]. apply IB. lra. }
      * intros [t [B C]]. apply IB in C. lra.
    + intros _. split; [exact FDI|]. rewrite ED. split; [apply IB; lra|]. intros t H. apply IB in H. lra.
  - assert (hit = false) by congruence. subst hit. split; [|discriminate]. split; [discriminate|]. intros [t [B C]]. apply IB in C. lra.
Qed.
Print Assumptions C98_ray.

(** the box grown (or shrunk, for negative [e]) by [e] *)
Definition s_grown (e : R) (mn mx p : vec3 R) : Prop :=
  s_in_box (V3 (vx mn - e) (vy mn - e) (vz mn - e)) (V3 (vx mx + e) (vy mx + e) (vz mx + e)) p.
(** C98: rays through the box at least [e] inside its faces are reported; a reported ray passes the box at a distance of at most [e] within
    the limits, and the reported distance is that of such a point, no later than the first point [e] inside.  [e] is 2^-23 of the largest
    distance from the origin to a face *)
Theorem C98_margin : forall (b : box F64) (o d : vec3 F64) (t0 t1 d0 : F64) D,
  s_finv (b_min b) -> s_finv (b_max b) -> s_finv o -> s_finv d -> s_rangev d -> s_fin t0 -> s_fin t1 -> B2R t0 < B2R t1 ->
  s_bound (10 ^ 20) (rv (b_min b)) -> s_bound (10 ^ 20) (rv (b_max b)) -> s_bound (10 ^ 20) (rv o) ->
  s_ordered (rv (b_min b)) (rv (b_max b)) ->
  s_close D (rv (b_min b)) (rv o) -> s_close D (rv (b_max b)) (rv o) ->
  let u := rv (r_d (ray_make o d)) in s_steep u ->
  let e := / 8388608 * D + bpow radix2 (-148) in
  let near e t := s_grown e (rv (b_min b)) (rv (b_max b)) (s_ray_at (rv o) u t) in
  let (hit, dist) := box_ray b (ray_make o d) t0 t1 d0 in
  ((exists t, B2R t0 < t < B2R t1 /\ near (- e) t) -> hit = true) /\
  (hit = true -> (exists t, B2R t0 < t < B2R t1 /\ near e t) /\ s_fin dist /\ near e (B2R dist) /\ forall t, near (- e) t -> B2R dist <= t).
Proof.
  intros b o d t0 t1 d0 D A1 A2 A3 A4 A5 A6 A7 A8 A9 A10 A11 A12 [CN1 [CN2 CN3]] [CX1 [CX2 CX3]] u A13 e near.
  destruct (C98_ray b o d t0 t1 d0 A1 A2 A3 A4 A5 A6 A7 A8 A9 A10 A11 A12 A13) as [_ [lo [hi [OR [DI H]]]]]. cbv zeta in H. fold u in H.
  assert (G : forall x b o, Rabs (x - b) <= / 8388608 * Rabs (b - o) + bpow radix2 (-148) -> Rabs (b - o) <= D -> b - e <= x <= b + e).
  { intros x b' o' P Q. assert (Rabs (x - b') <= e) by (unfold e; lra). apply Rabs_le_inv in H0. lra. }
  destruct DI as [D1 [D2 [D3 [D4 [D5 D6]]]]]. unfold s_grown in near.
  pose proof (G _ _ _ D1 CN1) as E1. pose proof (G _ _ _ D2 CN2) as E2. pose proof (G _ _ _ D3 CN3) as E3.
  pose proof (G _ _ _ D4 CX1) as E4. pose proof (G _ _ _ D5 CX2) as E5. pose proof (G _ _ _ D6 CX3) as E6.
  assert (IN : forall t, s_in_box lo hi (s_ray_at (rv o) u t) -> near e t).
  { intros t [P [Q S]]. unfold near, s_grown, s_in_box. cbn [vx vy vz]. lra. }
  assert (OUT : forall t, near (- e) t -> s_in_box lo hi (s_ray_at (rv o) u t)).
  { intros t P. unfold near, s_grown, s_in_box in P. cbn [vx vy vz] in P. unfold s_in_box. lra. }
  destruct (box_ray b (ray_make o d) t0 t1 d0) as [hit dist]. destruct H as [H1 H2]. split.
  - intros [t [T N]]. apply H1. exists t. auto.
  - intro HT. destruct (H2 HT) as [F [I M]]. destruct (proj1 H1 HT) as [t [T N]]. split; [exists t; auto|]. split; [exact F|]. split; auto.
Qed.
Print Assumptions C98_margin.

Example C98_nonvacuous : let b := box_make (V3 (nofZ 1) (nofZ 1) (nofZ 1)) (V3 (nofZ 3) (nofZ 2) (nofZ 2)) : box F64 in
  let o := V3 n0 n0 n0 : vec3 F64 in let d := V3 (nofZ 1) (nofZ 1) (nofZ 1) : vec3 F64 in
  s_finv (b_min b) /\ s_finv (b_max b) /\ s_finv o /\ s_finv d /\ s_rangev d /\ s_bound (10 ^ 20) (rv (b_min b)) /\ s_bound (10 ^ 20) (rv (b_max b)) /\ s_bound (10 ^ 20) (rv o) /\
  s_ordered (rv (b_min b)) (rv (b_max b)) /\ s_close 3 (rv (b_min b)) (rv o) /\ s_close 3 (rv (b_max b)) (rv o) /\ s_steep (rv (r_d (ray_make o d))) /\
  fst (box_ray b (ray_make o d) n0 (nofZ 10) n0) = true.
Proof.
  assert (Z : forall z, (Z.abs z < 2 ^ 53)%Z -> s_fin (nofZ z : F64) /\ B2R (nofZ z : F64) = IZR z) by (intros z L; exact (ofZ_R z L)).
  destruct (Z 0%Z ltac:(lia)) as [F0 E0]. destruct (Z 1%Z ltac:(lia)) as [F1 E1]. destruct (Z 2%Z ltac:(lia)) as [F2 E2]. destruct (Z 3%Z ltac:(lia)) as [F3 E3].
  assert (AB : forall x c, - c <= x <= c -> Rabs x <= c) by (intros; apply Rabs_le; auto).
  cbv zeta. cbn [box_make b_min b_max].
  assert (RD : s_rangev (V3 (nofZ 1) (nofZ 1) (nofZ 1))).
  { unfold s_rangev, s_norm2, s_dot. cbn [rv vx vy vz]. rewrite E1. split.
    - apply Rle_trans with (bpow radix2 0); [apply bpow_le; lia|cbn; lra].
    - apply Rle_trans with (bpow radix2 2); [cbn; lra|apply bpow_le; lia]. }
  assert (FD : s_finv (V3 (nofZ 1) (nofZ 1) (nofZ 1))) by (split; [|split]; auto).
  destruct (normalized_b _ FD RD) as [_ [C1 [C2 C3]]].
  assert (N3 : s_norm2 (rv (V3 (nofZ 1) (nofZ 1) (nofZ 1))) = 3) by (unfold s_norm2, s_dot; cbn [rv vx vy vz]; rewrite E1; ring).
  assert (S2 : sqrt 3 <= 2) by (apply Rle_trans with (sqrt (2 * 2)); [apply sqrt_le_1; lra|rewrite sqrt_square; lra]). assert (S0 : 0 < sqrt 3) by (apply sqrt_lt_R0; lra).
  assert (IV : 1 / 2 <= 1 / sqrt 3) by (unfold Rdiv; rewrite !Rmult_1_l; apply Rinv_le_contravar; lra).
  unfold SpecRound.s_unit in C1, C2, C3. rewrite N3 in C1, C2, C3. cbn [rv vx vy vz] in C1, C2, C3. rewrite E1 in C1, C2, C3.
  assert (ST : forall x, Rabs (x - 1 / sqrt 3) <= 8 * uro -> 1 / 10 ^ 9 <= Rabs x).
  { intros x H. apply Rabs_le_inv in H. unfold uro in H. rewrite Rabs_right; lra. }
  split; [split; [|split]; auto|]. split; [split; [|split]; auto|]. split; [split; [|split]; auto|]. split; [auto|]. split; [auto|].
  unfold s_bound, s_ordered, s_close, s_steep, n0. cbn [rv vx vy vz]. rewrite E0, E1, E2, E3.
  repeat (split; [repeat split; try apply AB; lra|]). split; [|vm_compute; reflexivity]. cbn [r_d ray_make]. repeat split; apply ST; auto.
Qed.
