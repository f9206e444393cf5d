(** Lemmas about src/Box.cpp and Shape::getBoundingBox. *)
From Coq Require Import ZArith NArith List Bool Lia Reals Lra Psatz.
From Verif Require Import Num MathTypes Outcome Mesh Box Spec NumOrd P_Tac P_Math P_Rot P_Mesh P_MeshGeo.
Import ListNotations.
Local Open Scope R_scope.

(** *** slabs *)
Lemma nmax_R : forall a b : R, nmax a b = Rmax a b.
Proof. intros. unfold nmax. unR. rcase; unfold Rmax; destruct (Rle_dec a b); lra. Qed.
Lemma nmin_R : forall a b : R, nmin a b = Rmin a b.
Proof. intros. unfold nmin. unR. rcase; unfold Rmin; destruct (Rle_dec a b); lra. Qed.

Definition bignum (d : R) : Prop := 1/1000000000 <= Rabs d.
Lemma inv1_big : forall d, bignum d -> inv1 d = / d /\ d <> 0.
Proof.
  intros d H. unfold bignum in H. unfold inv1. unR. rcase; [lra|]. split; [unfold Rdiv; ring|].
  intros ->. rewrite Rabs_R0 in H. lra.
Qed.
Lemma inv1_small : forall d, ~ bignum d -> inv1 d = 0.
Proof. intros d H. unfold bignum in H. unfold inv1. unR. rcase; lra. Qed.

(** one slab: entering and leaving parameters *)
Lemma slab : forall lo hi o d t, bignum d ->
  (lo <= o + t * d <= hi <->
   ((if Rltb d 0 then hi else lo) - o) * / d <= t <= ((if negb (Rltb d 0) then hi else lo) - o) * / d).
Proof.
  intros lo hi o d t B. destruct (inv1_big d B) as [_ N].
  assert (E : forall x, (x - o) * / d = (x - o) / d) by (intros; unfold Rdiv; ring). rewrite !E. clear E.
  destruct (Rltb d 0) eqn:S; cbn [negb]; rboolH.
  - assert (D : 0 < - d) by lra. 
    assert (P : forall x, (x - o)/d <= t <-> o + t*d <= x).
    { intros x. split; intros H.
      - assert (t * d <= x - o); [|lra]. replace (x-o) with ((x-o)/d*d) by (field; auto). nra.
      - apply Rmult_le_reg_r with (- d); auto. replace ((x-o)/d * - d) with (o - x) by (field; auto). lra. }
    assert (Q : forall x, t <= (x - o)/d <-> x <= o + t*d).
    { intros x. split; intros H.
      - assert (x - o <= t * d); [|lra]. replace (x-o) with ((x-o)/d*d) by (field; auto). nra.
      - apply Rmult_le_reg_r with (- d); auto. replace ((x-o)/d * - d) with (o - x) by (field; auto). lra. }
    rewrite P, Q. tauto.
  - assert (D : 0 < d) by lra.
    assert (P : forall x, (x - o)/d <= t <-> x <= o + t*d).
    { intros x. split; intros H.
      - assert (x - o <= t * d); [|lra]. replace (x-o) with ((x-o)/d*d) by (field; auto). nra.
      - apply Rmult_le_reg_r with d; auto. replace ((x-o)/d * d) with (x - o) by (field; auto). lra. }
    assert (Q : forall x, t <= (x - o)/d <-> o + t*d <= x).
    { intros x. split; intros H.
      - assert (t * d <= x - o); [|lra]. replace (x-o) with ((x-o)/d*d) by (field; auto). nra.
      - apply Rmult_le_reg_r with d; auto. replace ((x-o)/d * d) with (x - o) by (field; auto). lra. }
    rewrite P, Q. tauto.
Qed.
Lemma slab_nonempty : forall lo hi o d, bignum d -> lo <= hi ->
  ((if Rltb d 0 then hi else lo) - o) * / d <= ((if negb (Rltb d 0) then hi else lo) - o) * / d.
Proof.
  intros lo hi o d B L. destruct (inv1_big d B) as [_ N]. destruct (Rltb d 0) eqn:S; cbn [negb]; rboolH.
  - assert (/ d < 0) by (apply Rinv_lt_0_compat; auto). nra.
  - assert (0 < / d) by (apply Rinv_0_lt_compat; lra). nra.
Qed.

Definition dir_ok (d : vec3 R) : Prop :=
  bignum (vx (vnormalized d)) /\ bignum (vy (vnormalized d)) /\ bignum (vz (vnormalized d)).

(** shape of box_ray over the reals *)
Definition slab_lo (b : box R) (r : ray R) (i : nat) : R :=
  match i with
  | 0%nat => (vx (bnd b (r_s0 r)) - vx (r_o r)) * vx (r_inv r)
  | 1%nat => (vy (bnd b (r_s1 r)) - vy (r_o r)) * vy (r_inv r)
  | _ => (vz (bnd b (r_s2 r)) - vz (r_o r)) * vz (r_inv r)
  end.
Definition slab_hi (b : box R) (r : ray R) (i : nat) : R :=
  match i with
  | 0%nat => (vx (bnd b (negb (r_s0 r))) - vx (r_o r)) * vx (r_inv r)
  | 1%nat => (vy (bnd b (negb (r_s1 r))) - vy (r_o r)) * vy (r_inv r)
  | _ => (vz (bnd b (negb (r_s2 r))) - vz (r_o r)) * vz (r_inv r)
  end.
Lemma box_ray_R : forall (b : box R) r t0 t1 d0,
  let lo := Rmax (slab_lo b r 2) (Rmax (slab_lo b r 1) (slab_lo b r 0)) in
  let hi := Rmin (slab_hi b r 2) (Rmin (slab_hi b r 1) (slab_hi b r 0)) in
  slab_lo b r 0 <= slab_hi b r 0 -> slab_lo b r 1 <= slab_hi b r 1 -> slab_lo b r 2 <= slab_hi b r 2 ->
  (lo <= hi /\ box_ray b r t0 t1 d0 = ((Rltb t0 hi && Rltb lo t1)%bool, lo)) \/
  (hi < lo /\ box_ray b r t0 t1 d0 = (false, d0)).
Proof.
  intros b r t0 t1 d0 lo hi H0 H1 H2. unfold box_ray. rewrite !nmax_R, !nmin_R.
  cbn [nsub nmul nf32 nltb NumR].
  change ((vx (bnd b (r_s0 r)) - vx (r_o r)) * vx (r_inv r)) with (slab_lo b r 0).
  change ((vy (bnd b (r_s1 r)) - vy (r_o r)) * vy (r_inv r)) with (slab_lo b r 1).
  change ((vz (bnd b (r_s2 r)) - vz (r_o r)) * vz (r_inv r)) with (slab_lo b r 2).
  change ((vx (bnd b (negb (r_s0 r))) - vx (r_o r)) * vx (r_inv r)) with (slab_hi b r 0).
  change ((vy (bnd b (negb (r_s1 r))) - vy (r_o r)) * vy (r_inv r)) with (slab_hi b r 1).
  change ((vz (bnd b (negb (r_s2 r))) - vz (r_o r)) * vz (r_inv r)) with (slab_hi b r 2).
  unfold lo, hi. clear lo hi.
  set (a0 := slab_lo b r 0) in *. set (a1 := slab_lo b r 1) in *. set (a2 := slab_lo b r 2) in *.
  set (z0 := slab_hi b r 0) in *. set (z1 := slab_hi b r 1) in *. set (z2 := slab_hi b r 2) in *.
  clearbody a0 a1 a2 z0 z1 z2.
  destruct (Rltb z1 a0) eqn:E1; rboolH; cbn [orb].
  { right. split; auto. unfold Rmax, Rmin. repeat destruct Rle_dec; lra. }
  destruct (Rltb z0 a1) eqn:E2; rboolH; cbn [orb].
  { right. split; auto. unfold Rmax, Rmin. repeat destruct Rle_dec; lra. }
  destruct (Rltb z2 (Rmax a1 a0)) eqn:E3; rboolH; cbn [orb].
  { right. split; auto. unfold Rmax, Rmin in *. repeat destruct Rle_dec; lra. }
  destruct (Rltb (Rmin z1 z0) a2) eqn:E4; rboolH; cbn [orb].
  { right. split; auto. unfold Rmax, Rmin in *. repeat destruct Rle_dec; lra. }
  left. split; auto. unfold Rmax, Rmin in *. repeat destruct Rle_dec; lra.
Qed.

(** the parameters at which the ray is inside the box form an interval, and the test compares it with t0, t1 *)
Lemma ray_box_slabs : forall (b : box R) o d, s_ordered (b_min b) (b_max b) -> dir_ok d ->
  let u := vnormalized d in
  exists lo hi, (forall t, s_in_box (b_min b) (b_max b) (s_ray_at o u t) <-> lo <= t <= hi) /\
  forall t0 t1 d0,
  (lo <= hi /\ box_ray b (ray_make o d) t0 t1 d0 = ((Rltb t0 hi && Rltb lo t1)%bool, lo)) \/
  (hi < lo /\ box_ray b (ray_make o d) t0 t1 d0 = (false, d0)).
Proof.
  intros b o d [O1 [O2 O3]] [B0 [B1 B2]] u.
  change (vnormalized d) with u in B0, B1, B2.
  set (r := ray_make o d).
  assert (S0 : forall t, vx (b_min b) <= vx o + t * vx u <= vx (b_max b) <-> slab_lo b r 0 <= t <= slab_hi b r 0).
  { intros t. unfold slab_lo, slab_hi, r, ray_make. cbn [r_o r_d r_inv r_s0 vx vy vz]. fold u. unfold bnd.
    destruct (inv1_big (vx u) B0) as [-> _]. unR. rewrite (slab _ _ _ _ _ B0).
    destruct (Rltb (vx u) 0); cbn [negb]; tauto. }
  assert (S1 : forall t, vy (b_min b) <= vy o + t * vy u <= vy (b_max b) <-> slab_lo b r 1 <= t <= slab_hi b r 1).
  { intros t. unfold slab_lo, slab_hi, r, ray_make. cbn [r_o r_d r_inv r_s1 vx vy vz]. fold u. unfold bnd.
    destruct (inv1_big (vy u) B1) as [-> _]. unR. rewrite (slab _ _ _ _ _ B1).
    destruct (Rltb (vy u) 0); cbn [negb]; tauto. }
  assert (S2 : forall t, vz (b_min b) <= vz o + t * vz u <= vz (b_max b) <-> slab_lo b r 2 <= t <= slab_hi b r 2).
  { intros t. unfold slab_lo, slab_hi, r, ray_make. cbn [r_o r_d r_inv r_s2 vx vy vz]. fold u. unfold bnd.
    destruct (inv1_big (vz u) B2) as [-> _]. unR. rewrite (slab _ _ _ _ _ B2).
    destruct (Rltb (vz u) 0); cbn [negb]; tauto. }
  assert (NE : forall lo hi x y, bignum y -> lo <= hi -> exists t, lo <= x + t * y <= hi).
  { intros lo hi x y B L. exists ((lo - x)/y). destruct (inv1_big _ B) as [_ N].
    replace (x + (lo - x)/y*y) with lo by (field; auto). lra. }
  assert (N0 : slab_lo b r 0 <= slab_hi b r 0).
  { destruct (NE _ _ (vx o) _ B0 O1) as [t H]. apply S0 in H. lra. }
  assert (N1 : slab_lo b r 1 <= slab_hi b r 1).
  { destruct (NE _ _ (vy o) _ B1 O2) as [t H]. apply S1 in H. lra. }
  assert (N2 : slab_lo b r 2 <= slab_hi b r 2).
  { destruct (NE _ _ (vz o) _ B2 O3) as [t H]. apply S2 in H. lra. }
  assert (IB : forall t, s_in_box (b_min b) (b_max b) (s_ray_at o u t) <->
     Rmax (slab_lo b r 2) (Rmax (slab_lo b r 1) (slab_lo b r 0)) <= t <= Rmin (slab_hi b r 2) (Rmin (slab_hi b r 1) (slab_hi b r 0))).
  { intros t. unfold s_in_box, s_ray_at. cbn [vx vy vz]. rewrite S0, S1, S2. clear.
    unfold Rmax, Rmin. repeat destruct Rle_dec; lra. }
  exists (Rmax (slab_lo b r 2) (Rmax (slab_lo b r 1) (slab_lo b r 0))), (Rmin (slab_hi b r 2) (Rmin (slab_hi b r 1) (slab_hi b r 0))).
  split; [exact IB|]. intros t0 t1 d0. exact (box_ray_R b r t0 t1 d0 N0 N1 N2).
Qed.

Lemma ray_box_exact : forall (b : box R) o d t0 t1 d0, s_ordered (b_min b) (b_max b) -> dir_ok d -> t0 < t1 ->
  let u := vnormalized d in
  let (hit, dist) := box_ray b (ray_make o d) t0 t1 d0 in
  (hit = true <-> exists t, t0 < t < t1 /\ s_in_box (b_min b) (b_max b) (s_ray_at o u t)) /\
  (hit = true -> s_in_box (b_min b) (b_max b) (s_ray_at o u dist) /\
                 forall t, s_in_box (b_min b) (b_max b) (s_ray_at o u t) -> dist <= t).
Proof.
  intros b o d t0 t1 d0 O DD TT u. destruct (ray_box_slabs b o d O DD) as [lo [hi [IB BR]]]. fold u in IB. specialize (BR t0 t1 d0).
  destruct BR as [[L ->]|[L ->]].
  - split.
    + rewrite andb_true_iff, !Rltb_true. split.
      * intros [A B]. destruct (Rlt_dec t0 lo) as [C|C].
        { exists lo. split; [lra|]. apply IB. lra. }
        { destruct (Rlt_dec hi t1) as [D|D].
          - exists hi. split; [lra|]. apply IB. lra.
          - exists ((t0+t1)/2). split; [lra|]. apply IB. lra. }
      * intros [t [A B]]. apply IB in B. lra.
    + intros _. split; [apply IB; lra|]. intros t H. apply IB in H. lra.
  - split; [|discriminate]. split; [discriminate|]. intros [t [A B]]. apply IB in B. lra.
Qed.

(** a vanishing direction component forces the slab to [0,0]: nothing in front of the ray is ever hit *)
Lemma ray_box_parallel : forall (b : box R) o d t0 t1 d0, ~ dir_ok d -> 0 <= t0 ->
  fst (box_ray b (ray_make o d) t0 t1 d0) = false.
Proof.
  intros b o d t0 t1 d0 ND T0. unfold box_ray. rewrite !nmax_R, !nmin_R. unfold ray_make. cbn [r_o r_d r_inv r_s0 r_s1 r_s2 vx vy vz].
  cbn [nsub nmul nf32 nltb NumR].
  assert (Z : inv1 (vx (vnormalized d)) = 0 \/ inv1 (vy (vnormalized d)) = 0 \/ inv1 (vz (vnormalized d)) = 0).
  { destruct (Rle_dec (1/1000000000) (Rabs (vx (vnormalized d)))) as [A|A]; [|left; apply inv1_small; unfold bignum; lra].
    destruct (Rle_dec (1/1000000000) (Rabs (vy (vnormalized d)))) as [B|B]; [|right; left; apply inv1_small; unfold bignum; lra].
    destruct (Rle_dec (1/1000000000) (Rabs (vz (vnormalized d)))) as [C|C]; [|right; right; apply inv1_small; unfold bignum; lra].
    exfalso. apply ND. repeat split; auto. }
  repeat match goal with |- context [if ?c then _ else _] => match c with context [orb] => destruct c; [reflexivity|] end end.
  cbn [fst]. match goal with |- (Rltb t0 ?h && _)%bool = false => assert (H : h <= 0) end.
  { destruct Z as [-> | [-> | ->]]; rewrite ?Rmult_0_r; unfold Rmin; repeat destruct Rle_dec; lra. }
  apply andb_false_iff. left. apply Rltb_false. lra.
Qed.

(** *** box / box *)
Definition overlap1 (a b c d : R) : Prop := a <= d /\ c <= b.
Lemma half_overlap : forall a b c d, a <= b -> c <= d ->
  (Rabs ((a+b)/2 - (c+d)/2) <= (b-a)*(5/10) + (d-c)*(5/10) <-> overlap1 a b c d).
Proof. intros. unfold overlap1, Rabs. destruct Rcase_abs; lra. Qed.

Lemma box_box_R : forall b o : box R, s_ordered (b_min b) (b_max b) -> s_ordered (b_min o) (b_max o) ->
  box_box b o = true <->
  overlap1 (vx (b_min b)) (vx (b_max b)) (vx (b_min o)) (vx (b_max o)) /\
  overlap1 (vy (b_min b)) (vy (b_max b)) (vy (b_min o)) (vy (b_max o)) /\
  Rabs ((vy (b_min b) + vy (b_max b))/2 - (vz (b_min o) + vz (b_max o))/2)
    <= (vz (b_max b) - vz (b_min b)) * (5/10) + (vz (b_max o) - vz (b_min o)) * (5/10).
Proof.
  intros b o [A1 [A2 A3]] [B1 [B2 B3]]. unfold box_box, box_center, box_size. unmath.
  rewrite <- (half_overlap _ _ _ _ A1 B1), <- (half_overlap _ _ _ _ A2 B2).
  do 3 (rcase; [split; [discriminate|intros; lra]|]). tauto.
Qed.

Lemma share_point : forall a b c d : vec3 R, s_ordered a b -> s_ordered c d ->
  (exists p, s_in_box a b p /\ s_in_box c d p) <->
  overlap1 (vx a) (vx b) (vx c) (vx d) /\ overlap1 (vy a) (vy b) (vy c) (vy d) /\ overlap1 (vz a) (vz b) (vz c) (vz d).
Proof.
  intros a b c d [A1 [A2 A3]] [B1 [B2 B3]]. unfold overlap1, s_in_box. split.
  - intros [p H]. lra.
  - intros H. exists (V3 (Rmax (vx a) (vx c)) (Rmax (vy a) (vy c)) (Rmax (vz a) (vz c))). cbn [vx vy vz].
    unfold Rmax. repeat destruct Rle_dec; lra.
Qed.

(** *** sphere / box *)
Definition clampR (lo hi x : R) : R := if Rlt_dec x lo then lo else if Rlt_dec hi x then hi else x.
Lemma clamp_spec : forall lo hi x c, lo <= hi -> c = (lo + hi)/2 ->
  (if (Rltb lo x && Rltb x hi)%bool then x else if Rltb c x then hi else lo) = clampR lo hi x.
Proof.
  intros lo hi x c L ->. unfold clampR. destruct (Rltb lo x) eqn:A; destruct (Rltb x hi) eqn:B; cbn [andb]; rboolH.
  - repeat destruct Rlt_dec; lra.
  - rcase; repeat destruct Rlt_dec; lra.
  - rcase; repeat destruct Rlt_dec; lra.
  - rcase; repeat destruct Rlt_dec; lra.
Qed.
Lemma clamp_best : forall lo hi x q, lo <= hi -> lo <= q <= hi ->
  lo <= clampR lo hi x <= hi /\ (x - clampR lo hi x)^2 <= (x - q)^2.
Proof.
  intros lo hi x q L Q. unfold clampR. destruct Rlt_dec; [|destruct Rlt_dec]; (split; [lra|]).
  - pose proof (Rmult_le_pos (q - lo) (q + lo - 2*x) ltac:(lra) ltac:(lra)). lra.
  - pose proof (Rmult_le_pos (hi - q) (2*x - q - hi) ltac:(lra) ltac:(lra)). lra.
  - pose proof (Rle_0_sqr (x - q)) as S. unfold Rsqr in S. replace ((x-x)^2) with 0 by ring. lra.
Qed.

Lemma box_sphere_R : forall (b : box R) p r, s_ordered (b_min b) (b_max b) ->
  box_sphere b p r = true <->
  (if Rle_dec r 0 then s_in_box (b_min b) (b_max b) p
   else exists q, s_in_box (b_min b) (b_max b) q /\ s_dist2 p q <= r * r).
Proof.
  intros [mn mx me] p r [O1 [O2 O3]]. cbn [b_min b_max] in *. unfold box_sphere. unR. cbn [b_min b_max].
  destruct (Rle_dec r 0) as [L|L].
  - rcase; [|lra]. unfold box_contains, s_in_box. cbn [b_min b_max]. unR. rewrite !andb_true_iff, !Rleb_true. lra.
  - rcase; [lra|].
    assert (E : clamp_axis (Box_ mn mx me) p (clamp_axis (Box_ mn mx me) p (clamp_axis (Box_ mn mx me) p (box_center (Box_ mn mx me)) 0) 1) 2
      = V3 (clampR (vx mn) (vx mx) (vx p)) (clampR (vy mn) (vy mx) (vy p)) (clampR (vz mn) (vz mx) (vz p))).
    { rewrite <- (clamp_spec _ _ (vx p) _ O1 eq_refl), <- (clamp_spec _ _ (vy p) _ O2 eq_refl), <- (clamp_spec _ _ (vz p) _ O3 eq_refl).
      unfold clamp_axis, box_center, bnd. cbn [b_min b_max]. unfold vdivs, vadd. unR. cbn [vget vset vx vy vz].
      destruct (Rltb (vx mn) (vx p) && Rltb (vx p) (vx mx))%bool; cbn [vget vset vx vy vz];
      destruct (Rltb (vy mn) (vy p) && Rltb (vy p) (vy mx))%bool; cbn [vget vset vx vy vz];
      destruct (Rltb (vz mn) (vz p) && Rltb (vz p) (vz mx))%bool; cbn [vget vset vx vy vz];
      repeat match goal with |- context [Rltb ?a ?b] => destruct (Rltb a b) end; reflexivity. }
    rewrite E. clear E. rewrite Rleb_true.
    assert (DE : forall a b c, vlength2 (vsub p (V3 a b c)) = s_dist2 p (V3 a b c)).
    { intros. unfold s_dist2. unmath. ring. }
    rewrite DE. split.
    + intros H. eexists. split; [|exact H]. unfold s_in_box. cbn [vx vy vz].
      destruct (clamp_best _ _ (vx p) (vx mn) O1) as [? _]; [lra|].
      destruct (clamp_best _ _ (vy p) (vy mn) O2) as [? _]; [lra|].
      destruct (clamp_best _ _ (vz p) (vz mn) O3) as [? _]; [lra|]. auto.
    + intros [q [[Q1 [Q2 Q3]] D]].
      destruct (clamp_best _ _ (vx p) (vx q) O1 Q1) as [_ ?].
      destruct (clamp_best _ _ (vy p) (vy q) O2 Q2) as [_ ?].
      destruct (clamp_best _ _ (vz p) (vz q) O3 Q3) as [_ ?].
      unfold s_dist2 in *. cbn [vx vy vz]. lra.
Qed.
