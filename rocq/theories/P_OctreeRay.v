(** Ray queries on octrees over the reals. *)
From Coq Require Import ZArith NArith List Bool Lia Reals Lra Psatz Arith.
From Verif Require Import Num MathTypes Outcome Mesh Box Composite Octree Spec SpecOctree NumOrd P_Tac P_Math P_Box P_BoxMesh P_Composite P_Octree.
Import ListNotations.
Local Open Scope R_scope.

Definition gen (d : vec3 R) : Prop := s_general_dir d /\ s_unit d = d.
Definition strict (mn mx p : vec3 R) : Prop :=
  vx mn < vx p < vx mx /\ vy mn < vy p < vy mx /\ vz mn < vz p < vz mx.
Definition incube (off : vec3 R) (s : R) (path : list step) (p : vec3 R) : Prop := s_in_box (pmin off s path) (pmax off s path) p.
Definition scube (off : vec3 R) (s : R) (path : list step) (p : vec3 R) : Prop := strict (pmin off s path) (pmax off s path) p.
Definition z0 : vec3 R := V3 0 0 0.

Lemma scube_incube : forall off s path p, scube off s path p -> incube off s path p.
Proof. unfold scube, incube, strict, s_in_box. intros. lra. Qed.
Lemma pm_off : forall off dv s path, pmin (vadd off dv) s path = vadd (pmin off s path) dv /\ pmax (vadd off dv) s path = vadd (pmax off s path) dv.
Proof. intros. destruct off as [a b c], dv as [e f g]. unfold pmin, pmax, s_cmin, s_cmax. unmath. split; apply V3_eq; ring. Qed.
Lemma incube_off : forall off dv s path p, incube (vadd off dv) s path p <-> incube off s path (vsub p dv).
Proof.
  intros. unfold incube. destruct (pm_off off dv s path) as [-> ->]. destruct dv as [e f g], p as [a b c]. unfold s_in_box. unmath. lra.
Qed.
Lemma scube_off : forall off dv s path p, scube (vadd off dv) s path p <-> scube off s path (vsub p dv).
Proof.
  intros. unfold scube, strict. destruct (pm_off off dv s path) as [-> ->]. destruct dv as [e f g], p as [a b c]. unmath. lra.
Qed.
Lemma incube_step : forall s x y z r p, incube z0 s ((x, y, z) :: r) p <-> incube z0 (s/2) r (vsub p (shift z0 s x y z)).
Proof.
  intros. unfold incube at 1. rewrite pmin_step, pmax_step. fold (incube (shift z0 s x y z) (s/2) r p).
  rewrite <- incube_off. replace (vadd z0 (shift z0 s x y z)) with (shift z0 s x y z); [tauto|].
  unfold shift, z0. unmath. apply V3_eq; ring.
Qed.
Lemma scube_step : forall s x y z r p, scube z0 s ((x, y, z) :: r) p <-> scube z0 (s/2) r (vsub p (shift z0 s x y z)).
Proof.
  intros. unfold scube at 1. rewrite pmin_step, pmax_step. fold (scube (shift z0 s x y z) (s/2) r p).
  rewrite <- scube_off. replace (vadd z0 (shift z0 s x y z)) with (shift z0 s x y z); [tauto|].
  unfold shift, z0. unmath. apply V3_eq; ring.
Qed.
Definition hi3 (s : R) : vec3 R := V3 s s s.
Lemma incube_nil : forall s p, incube z0 s [] p <-> s_in_box z0 (hi3 s) p.
Proof.
  intros. unfold incube, pmin, pmax, s_cmin, s_cmax, z0, hi3, s_in_box. cbn [length ax map zval vx vy vz]. rewrite side_0. lra.
Qed.
Lemma incube_in : forall s path p, 0 < s -> incube z0 s path p -> s_in_box z0 (hi3 s) p.
Proof.
  intros s path p P H. pose proof (path_bounds z0 s path P) as B. unfold inb, incube, s_in_box, z0, hi3 in *. cbn [vadd vx vy vz nadd NumR] in *. lra.
Qed.
Lemma scube_in : forall s path p, 0 < s -> scube z0 s path p -> strict z0 (hi3 s) p.
Proof.
  intros s path p P H. pose proof (path_bounds z0 s path P) as B. unfold inb, scube, strict, z0, hi3 in *. cbn [vadd vx vy vz nadd NumR] in *. lra.
Qed.

Lemma at_eq : forall o d (t : R), vadd o (vscale d t) = s_ray_at o d t.
Proof. intros [a b c] [e f g] t. unfold s_ray_at. unmath. apply V3_eq; ring. Qed.
Lemma at_sub : forall o d dv t, s_ray_at (vsub o dv) d t = vsub (s_ray_at o d t) dv.
Proof. intros [a b c] [e f g] [h i j] t. unfold s_ray_at. unmath. apply V3_eq; ring. Qed.
Lemma at_back : forall o d t0 t, s_ray_at (s_ray_at o d t0) (vopp d) t = s_ray_at o d (t0 - t).
Proof. intros [a b c] [e f g] t0 t. unfold s_ray_at. unmath. apply V3_eq; ring. Qed.
Lemma unit_opp : forall d, s_unit (vopp d) = vopp (s_unit d).
Proof.
  intros [a b c]. assert (E : s_norm (vopp (V3 a b c)) = s_norm (V3 a b c)) by (unfold s_norm, s_dot; unmath; f_equal; ring).
  unfold s_unit. rewrite E. generalize (s_norm (V3 a b c)). intros k. unmath. apply V3_eq; unfold Rdiv; ring.
Qed.
Lemma general_opp : forall d, s_general_dir d -> s_general_dir (vopp d).
Proof.
  intros d [A [B C]]. unfold s_general_dir. rewrite unit_opp. destruct (s_unit d) as [a b c]. unmath. rewrite !Rabs_Ropp. auto.
Qed.

(** the ray leaves the box around the sample *)
Lemma exit_spec : forall s dv o d t0 t1, 0 < s -> gen d ->
  let hi := V3 (vx dv + s/2) (vy dv + s/2) (vz dv + s/2) in
  s_in_box dv hi (s_ray_at o d t0) ->
  let e := node_exit s dv (s_ray_at o d t0) d t0 t1 in
  t0 <= e /\ forall t, t0 <= t -> (s_in_box dv hi (s_ray_at o d t) <-> t <= e).
Proof.
  intros s dv o d t0 t1 P [G U] hi IN e.
  assert (O : s_ordered dv hi) by (unfold s_ordered, hi; cbn [vx vy vz]; lra).
  destruct (ray_box_slabs (box_make dv hi) (s_ray_at o d t0) (vopp d) O (general_opp d G)) as [lo [h [IB BR]]].
  cbn [box_make b_min b_max] in IB.
  assert (UN : vnormalized (vopp d) = vopp d). { change (vnormalized (vopp d)) with (s_unit (vopp d)). rewrite unit_opp, U. auto. }
  rewrite UN in IB.
  assert (I0 : lo <= 0 <= h). { apply IB. rewrite at_back, Rminus_0_r. exact IN. }
  assert (E : e = t0 - lo).
  { unfold e, node_exit. fold hi. change (V3 (vx dv + s / 2)%num (vy dv + s / 2)%num (vz dv + s / 2)%num) with hi.
    destruct (BR (nofZ 0) (nf32 (t1 - t0)%num) (ndiv n0 n0)) as [[L X]|[L X]]; [|lra].
    change (V3 (nadd (vx dv) (ndiv s n2)) (nadd (vy dv) (ndiv s n2)) (nadd (vz dv) (ndiv s n2))) with hi.
    rewrite X. reflexivity. }
  split; [lra|]. intros t T. replace t with (t0 - (t0 - t)) at 1 by ring. rewrite <- at_back, IB. lra.
Qed.

Lemma outside_R : forall o s, outside o s = false <-> s_in_box z0 (hi3 s) o.
Proof.
  intros o s. unfold outside. rewrite !orb_false_iff. cbn [nltb NumR n0 nofZ]. rewrite !Rltb_false.
  unfold s_in_box, z0, hi3. cbn [vx vy vz]. tauto.
Qed.
(** the child picked for a sample *)
Definition pick (s : R) (p : vec3 R) : step := (Rleb (s/2) (vx p), Rleb (s/2) (vy p), Rleb (s/2) (vz p)).
Definition dvec (s : R) (st : step) : vec3 R := let '(x, y, z) := st in V3 (sel x (s/2)) (sel y (s/2)) (sel z (s/2)).
Lemma dvec_shift : forall s x y z, dvec s (x, y, z) = shift z0 s x y z.
Proof. intros. unfold dvec, shift, z0, sel. destruct x, y, z; unmath; apply V3_eq; ring. Qed.
Definition dhi (s : R) (st : step) : vec3 R := V3 (vx (dvec s st) + s/2) (vy (dvec s st) + s/2) (vz (dvec s st) + s/2).
Lemma pick_in : forall s p, s_in_box z0 (hi3 s) p -> s_in_box (dvec s (pick s p)) (dhi s (pick s p)) p.
Proof.
  intros s p H. unfold s_in_box, z0, hi3, dhi, dvec, pick, sel in *. cbn [vx vy vz] in *.
  destruct (Rleb (s/2) (vx p)) eqn:A, (Rleb (s/2) (vy p)) eqn:B, (Rleb (s/2) (vz p)) eqn:C; cbn [n0 nofZ NumR];
    try apply Rleb_true in A; try apply Rleb_true in B; try apply Rleb_true in C;
    try apply Rleb_false in A; try apply Rleb_false in B; try apply Rleb_false in C; lra.
Qed.
(** the child picked is the one whose open cell holds the sample *)
Lemma pick_strict : forall s x y z p, strict (dvec s (x, y, z)) (dhi s (x, y, z)) p -> pick s p = (x, y, z).
Proof.
  intros s x y z p H. unfold strict, dhi, dvec, sel in H. cbn [vx vy vz n0 nofZ NumR] in H. unfold pick.
  assert (K : forall (b : bool) (v : R), (if b then s/2 else 0) < v < (if b then s/2 else 0) + s/2 -> Rleb (s/2) v = b).
  { intros [] v V; [apply Rleb_true|apply Rleb_false]; lra. }
  destruct H as [A [B C]]. rewrite (K x), (K y), (K z); auto.
Qed.
Lemma strict_disjoint : forall s a b p, 0 < s -> strict (dvec s a) (dhi s a) p -> s_in_box (dvec s b) (dhi s b) p -> a = b.
Proof.
  intros s [[x y] z] [[x' y'] z'] p P H I. unfold strict, s_in_box, dhi, dvec, sel in *. cbn [vx vy vz n0 nofZ NumR] in *.
  destruct x, x'; try (exfalso; lra); destruct y, y'; try (exfalso; lra); destruct z, z'; try (exfalso; lra); auto.
Qed.
Lemma scube_child : forall s st r p, 0 < s -> scube z0 s (st :: r) p -> strict (dvec s st) (dhi s st) p.
Proof.
  intros s [[x y] z] r p P H. apply scube_step in H. apply scube_in in H; [|lra]. rewrite <- dvec_shift in H.
  unfold strict, z0, hi3, dhi in *. destruct (dvec s (x, y, z)) as [a b c], p as [e f g]. unmath. lra.
Qed.
Lemma box_shift : forall s st p, s_in_box (dvec s st) (dhi s st) p <-> s_in_box z0 (hi3 (s/2)) (vsub p (dvec s st)).
Proof. intros. unfold s_in_box, z0, hi3, dhi. destruct (dvec s st) as [a b c], p as [e f g]. unmath. lra. Qed.

(** one step of the two traversals, with the sample point and the picked child made explicit *)
Lemma node_ray_eq : forall f res s occ' ch o d t0 t1 dd, gen d ->
  let p := s_ray_at o d t0 in
  node_ray (S f) res (Node s (s/2) occ' ch) (ray_make o d) t0 t1 dd =
  if occ' then Ret (true, dd) else
  if outside p s then Ret (false, dd) else
  let '(x, y, z) := pick s p in
  let* hd := match ch x y z with
             | Null => Ret (false, dd)
             | Node _ _ _ _ => node_ray f res (ch x y z) (ray_make (vsub o (dvec s (x, y, z))) d) t0 t1 dd end in
  if fst hd : bool then Ret (true, snd hd)
  else let e := node_exit s (dvec s (x, y, z)) p d t0 t1 in
       node_ray f res (Node s (s/2) occ' ch) (ray_make o d) (e + res * (1/10)) t1 e.
Proof.
  intros f res s occ' ch o d t0 t1 dd [G U] p. cbn [node_ray].
  change (r_o (ray_make o d)) with o. change (r_d (ray_make o d)) with (s_unit d). rewrite U, at_eq. fold p.
  destruct occ'; auto. destruct (outside p s); auto. unfold pick. cbn [nleb NumR].
  destruct (ch (Rleb (s / 2) (vx p)) (Rleb (s / 2) (vy p)) (Rleb (s / 2) (vz p))) as [|s2 sp2 o2 ch2]; cbn [obind fst snd].
  - reflexivity.
  - change (V3 (sel (Rleb (s / 2) (vx p)) (s / 2)) (sel (Rleb (s / 2) (vy p)) (s / 2)) (sel (Rleb (s / 2) (vz p)) (s / 2)))
      with (dvec s (Rleb (s / 2) (vx p), Rleb (s / 2) (vy p), Rleb (s / 2) (vz p))).
    destruct (node_ray f res (Node s2 sp2 o2 ch2) _ t0 t1 dd) as [[hit x]| | |]; reflexivity.
Qed.
Lemma node_raytrace_eq : forall f res s occ' ch o d t0 t1,
  let p := s_ray_at o d t0 in
  node_raytrace (S f) res (Node s (s/2) occ' ch) o d t0 t1 =
  if Rltb t1 t0 then Ret (Node s (s/2) occ' ch) else
  if outside p s then Ret (Node s (s/2) occ' ch) else
  let '(x, y, z) := pick s p in
  let* ch' := match ch x y z with
             | Null => Ret ch
             | Node _ _ _ _ => let* c' := node_raytrace f res (ch x y z) (vsub o (dvec s (x, y, z))) d t0 t1 in Ret (set_ch ch x y z c') end in
  node_raytrace f res (Node s (s/2) false ch') o d (node_exit s (dvec s (x, y, z)) p d t0 t1 + res * (1/10)) t1.
Proof.
  intros f res s occ' ch o d t0 t1 p. cbn [node_raytrace]. rewrite at_eq. fold p. cbn [nltb NumR].
  destruct (Rltb t1 t0); auto. destruct (outside p s); auto. unfold pick. cbn [nleb NumR].
  destruct (ch (Rleb (s / 2) (vx p)) (Rleb (s / 2) (vy p)) (Rleb (s / 2) (vz p))) as [|s2 sp2 o2 ch2]; reflexivity.
Qed.

(** a unit ray cannot stay inside *)
Lemma leaves : forall d o s t t', gen d -> s_in_box z0 (hi3 s) (s_ray_at o d t) -> s_in_box z0 (hi3 s) (s_ray_at o d t') -> t' - t <= 2 * s.
Proof.
  intros d o s t t' [G U] A B. assert (N : s_dot d d = 1).
  { assert (H := norm_unit d (general_nonzero d G)). rewrite U in H. unfold s_norm in H.
    assert (0 <= s_dot d d) by (unfold s_dot; nra). rewrite <- (sqrt_sqrt (s_dot d d)) by auto. rewrite H. ring. }
  unfold s_in_box, z0, hi3, s_ray_at, s_dot in *. cbn [vx vy vz] in *.
  assert (X : - s <= (t' - t) * vx d <= s) by lra. assert (Y : - s <= (t' - t) * vy d <= s) by lra. assert (Z : - s <= (t' - t) * vz d <= s) by lra.
  assert (S0 : 0 <= s) by lra.
  assert (K : forall q, - s <= q <= s -> q * q <= s * s) by (intros; nra).
  apply K in X, Y, Z. assert (E : (t' - t) * (t' - t) <= 3 * (s * s)).
  { replace ((t' - t) * (t' - t)) with ((t' - t) * (t' - t) * (vx d * vx d + vy d * vy d + vz d * vz d)) by (rewrite N; ring). lra. }
  apply Rnot_lt_le. intros C. nra.
Qed.
Definition steps (s del : R) : nat := Z.to_nat (up (2 * s / del)) + 1.
Lemma steps_enough : forall d o s del t0, gen d -> 0 < s -> 0 < del -> s_in_box z0 (hi3 s) (s_ray_at o d t0) ->
  forall t, t0 + INR (steps s del) * del <= t -> ~ s_in_box z0 (hi3 s) (s_ray_at o d t).
Proof.
  intros d o s del t0 G P D IN t T C. pose proof (leaves d o s t0 t G IN C) as L.
  unfold steps in T. rewrite plus_INR in T. cbn [INR] in T.
  assert (Q : 0 <= 2 * s / del) by (apply Rlt_le, Rdiv_lt_0_compat; lra).
  destruct (archimed (2 * s / del)) as [A _].
  assert (0 <= up (2 * s / del))%Z by (apply le_IZR; lra).
  rewrite INR_IZR_INZ, Z2Nat.id in T by auto.
  assert (AA := Rmult_lt_compat_r del _ _ D A). replace (2 * s / del * del) with (2 * s) in AA by (field; lra).
  lra.
Qed.

(** open chord of the ray in a cell *)
Definition chord (off : vec3 R) (s : R) (path : list step) (o d : vec3 R) (a b : R) : Prop :=
  a < b /\ forall t, a < t < b -> scube off s path (s_ray_at o d t).
(** chords that a traversal starting at t0 with step margin del must notice *)
Definition due (t0 del a b : R) : Prop := t0 < b /\ (a < t0 \/ a + del < b).

Lemma chord_step : forall s st r o d a b, chord z0 s (st :: r) o d a b -> chord z0 (s/2) r (vsub o (dvec s st)) d a b.
Proof.
  intros s [[x y] z] r o d a b [L C]. split; auto. intros t T. rewrite at_sub, dvec_shift. apply scube_step. auto.
Qed.

(** what a traversal from t0 answers: on a hit, some listed cube is met at t, which is t0 (distance untouched) or del past the
    distance returned, and every cube left before was not due; without hit no listed cube was due *)
Definition ray_res (s del : R) (n : node R) (o d : vec3 R) (t0 dd : R) (h : bool) (x : R) : Prop :=
  (h = true -> (~ occ n [] \/ s_in_box z0 (hi3 s) (s_ray_at o d t0)) ->
     exists path t, listed n path /\ t0 <= t /\ incube z0 s path (s_ray_at o d t) /\ ((t = t0 /\ x = dd) \/ t = x + del) /\
       forall path' a b, listed n path' -> chord z0 s path' o d a b -> b <= t -> ~ due t0 del a b) /\
  (h = false -> (exists t, t <= t0 /\ s_in_box z0 (hi3 s) (s_ray_at o d t)) ->
     forall path a b, listed n path -> chord z0 s path o d a b -> ~ due t0 del a b).

Lemma in_between : forall o d s t t0 u, t <= t0 <= u -> s_in_box z0 (hi3 s) (s_ray_at o d t) -> s_in_box z0 (hi3 s) (s_ray_at o d u) ->
  s_in_box z0 (hi3 s) (s_ray_at o d t0).
Proof.
  intros o d s t t0 u T A B. unfold s_in_box, s_ray_at, z0, hi3 in *. cbn [vx vy vz] in *.
  assert (CV : forall k v lo hi, lo <= k + t * v <= hi -> lo <= k + u * v <= hi -> lo <= k + t0 * v <= hi)
    by (intros k v lo hi [? ?] [? ?]; destruct (Rle_dec 0 v); nra).
  split; [|split]; apply CV; tauto.
Qed.
(** a chord due at t0 forces the sample at t0 to be inside *)
Lemma due_inside : forall s del o d t0 t path a b, 0 < s -> t <= t0 -> s_in_box z0 (hi3 s) (s_ray_at o d t) ->
  chord z0 s path o d a b -> due t0 del a b -> s_in_box z0 (hi3 s) (s_ray_at o d t0).
Proof.
  intros s del o d t0 t path a b P T1 T2 [CL C] [D1 D2].
  set (u := if Rle_dec a t0 then (t0 + b) / 2 else (a + b) / 2).
  assert (U : t0 < u /\ a < u < b) by (unfold u; destruct (Rle_dec a t0); lra).
  apply (in_between o d s t t0 u); [lra|auto|]. apply (incube_in s path); auto; apply scube_incube, C; tauto.
Qed.
(** a chord in another child starts after the exit of the picked one *)
Lemma chord_after : forall s st st' r o d t0 e a b, 0 < s -> t0 <= e -> st' <> st ->
  (forall t, t0 <= t <= e -> s_in_box (dvec s st) (dhi s st) (s_ray_at o d t)) ->
  chord z0 s (st' :: r) o d a b -> t0 < b -> e <= a.
Proof.
  intros s st st' r o d t0 e a b P X1 NE X2 [CL C] D1.
  assert (NT : forall t, t0 <= t <= e -> ~ a < t < b).
  { intros t T K. apply NE. apply (strict_disjoint s _ _ (s_ray_at o d t) P); [eapply scube_child; eauto|]. apply X2; tauto. }
  apply Rnot_lt_le. intros K. destruct (Rlt_dec a t0) as [AA|AA].
  - apply (NT t0); lra.
  - destruct (Rle_dec e b); [apply (NT ((a + e)/2)); lra|apply (NT ((a + b)/2)); lra].
Qed.

Lemma node_ray_spec : forall res, 0 < res -> forall n s, 0 < s -> sized s n -> nonnull n ->
  exists F, forall fuel, (F <= fuel)%nat -> forall o d t0 t1 dd, gen d ->
  exists h x, node_ray fuel res n (ray_make o d) t0 t1 dd = Ret (h, x) /\ ray_res s (res * (1/10)) n o d t0 dd h x.
Proof.
  intros res RP. induction n as [|s' sp oc ch IH]; intros s P Z NN; [contradiction|].
  cbn [sized] in Z. destruct Z as [-> [-> Z]]. set (del := res * (1/10)). assert (DP : 0 < del) by (unfold del; lra).
  (* fuel enough for all children *)
  assert (HC : exists Fc, forall x y z, nonnull (ch x y z) -> forall fuel, (Fc <= fuel)%nat -> forall o d t0 t1 dd, gen d ->
    exists h w, node_ray fuel res (ch x y z) (ray_make o d) t0 t1 dd = Ret (h, w) /\ ray_res (s/2) del (ch x y z) o d t0 dd h w).
  { assert (K : forall l : list step, exists Fc, forall x y z, In (x, y, z) l -> nonnull (ch x y z) -> forall fuel, (Fc <= fuel)%nat -> forall o d t0 t1 dd, gen d ->
      exists h w, node_ray fuel res (ch x y z) (ray_make o d) t0 t1 dd = Ret (h, w) /\ ray_res (s/2) del (ch x y z) o d t0 dd h w).
    { induction l as [|[[x y] z] l [Fc IHl]]; [exists O; intros ? ? ? []|].
      destruct (ch x y z) as [|s2 sp2 o2 ch2] eqn:E.
      - exists Fc. intros x' y' z' [[= <- <- <-]|I] N; [rewrite E in N; contradiction|apply IHl; auto].
      - destruct (IH x y z (s/2)) as [F' H']; [lra|auto|rewrite E; exact I|]. exists (Nat.max Fc F').
        intros x' y' z' [[= <- <- <-]|I'] N fuel L; [apply H'; lia|apply IHl; auto; lia]. }
    destruct (K idx8) as [Fc HK]. exists Fc. intros x y z. apply HK. apply in_idx8. }
  clear IH. destruct HC as [Fc HC]. exists (Fc + steps s del + 2)%nat. intros fuel LF o d t0 t1 dd G.
  assert (STOP : forall t0 dd, outside (s_ray_at o d t0) s = true -> ray_res s del (Node s (s/2) false ch) o d t0 dd false dd).
  { intros t' dd' EO. assert (NI : ~ s_in_box z0 (hi3 s) (s_ray_at o d t')) by (intros NI; apply outside_R in NI; congruence).
    split; [discriminate|]. intros _ [t [T1 T2]] path a b L C D. apply NI. eapply due_inside; eauto. }
  assert (FULL : forall t0 dd, ray_res s del (Node s (s/2) true ch) o d t0 dd true dd).
  { intros t' dd'. split; [|discriminate]. intros _ [C|C]; [cbn in C; congruence|]. exists [], t'. split; [reflexivity|]. split; [lra|].
    split; [apply incube_nil; exact C|]. split; [auto|]. intros path a b _ _ B [D _]. lra. }
  (* iterations of the self call *)
  assert (IT : forall m fuel t0 dd, (Fc + m + 1 <= fuel)%nat -> (forall t, t0 + INR m * del <= t -> ~ s_in_box z0 (hi3 s) (s_ray_at o d t)) ->
    exists h x, node_ray fuel res (Node s (s/2) oc ch) (ray_make o d) t0 t1 dd = Ret (h, x) /\ ray_res s del (Node s (s/2) oc ch) o d t0 dd h x).
  { clear fuel LF t0 dd. induction m as [|m IHm]; intros fuel t0 dd LF OUT; (destruct fuel as [|fuel]; [lia|]); rewrite node_ray_eq by auto.
    all: set (p := s_ray_at o d t0) in *.
    all: destruct oc; [exists true, dd; split; [auto|apply FULL]|].
    all: destruct (outside p s) eqn:EO; [exists false, dd; split; [auto|apply STOP; auto]|].
    { exfalso. apply outside_R in EO. apply (OUT t0); auto. cbn [INR]. lra. }
    apply outside_R in EO. assert (PI := pick_in s p EO). destruct (pick s p) as [[x y] z] eqn:EP.
    destruct (exit_spec s (dvec s (x, y, z)) o d t0 t1 P G PI) as [X1 X2]. fold p in X1, X2.
    set (e := node_exit s (dvec s (x, y, z)) p d t0 t1) in *. cbv zeta in X2. fold (dhi s (x, y, z)) in X2.
    assert (X3 : forall t, t0 <= t <= e -> s_in_box (dvec s (x, y, z)) (dhi s (x, y, z)) (s_ray_at o d t)) by (intros; apply X2; tauto).
    (* after the picked child: the self call *)
    assert (SELF : (forall r a b, listed (ch x y z) r -> chord z0 s ((x, y, z) :: r) o d a b -> ~ due t0 del a b) ->
      exists h w, node_ray fuel res (Node s (s/2) false ch) (ray_make o d) (e + res * (1/10)) t1 e = Ret (h, w) /\
        ray_res s del (Node s (s/2) false ch) o d t0 dd h w).
    { intros CC. destruct (IHm fuel (e + res * (1/10)) e) as [h [w [E [H1 H2]]]]; [lia| |].
      { intros t T. apply OUT. rewrite S_INR. unfold del in *. lra. }
      exists h, w. split; [exact E|]. fold del in H1, H2.
      assert (TR : forall path a b, listed (Node s (s/2) false ch) path -> chord z0 s path o d a b -> due t0 del a b -> due (e + del) del a b).
      { intros path a b L C D. destruct path as [|[[x' y'] z'] r]; cbn [listed] in L; [discriminate|]. destruct L as [_ L].
        destruct (step_dec (x', y', z') (x, y, z)) as [EQ|NE].
        - injection EQ as -> -> ->. exfalso. apply (CC r a b); auto.
        - destruct D as [D1 D2]. pose proof (chord_after s _ _ r o d t0 e a b P X1 NE X3 C D1) as EA.
          destruct D2 as [D2|D2]; [lra|]. split; [lra|]. right. lra. }
      split.
      - intros -> _. destruct (H1 eq_refl) as [path [t [A [B [C [D D']]]]]]; [left; discriminate|]. exists path, t.
        split; auto. split; [lra|]. split; auto. split; [destruct D as [[-> ->]|D]; auto|].
        intros path' a b L C' LE DU. apply (D' path' a b); eauto.
      - intros -> _ path a b L C D. apply (H2 eq_refl) with (path := path) (a := a) (b := b); eauto. exists t0. split; [lra|auto]. }
    (* child call *)
    destruct (ch x y z) as [|s2 sp2 o2 ch2] eqn:EC; cbn [obind fst snd].
    - apply SELF. intros [|[[? ?] ?] ?] ? ? [].
    - assert (CI : s_in_box z0 (hi3 (s/2)) (s_ray_at (vsub o (dvec s (x, y, z))) d t0)).
      { rewrite at_sub. apply box_shift. exact PI. }
      destruct (HC x y z) with (fuel := fuel) (o := vsub o (dvec s (x, y, z))) (d := d) (t0 := t0) (t1 := t1) (dd := dd) as [h [w [E [H1 H2]]]]; auto.
      { rewrite EC. exact I. } { lia. }
      rewrite EC in E, H1, H2. rewrite E. cbn [obind fst snd]. destruct h.
      + exists true, w. split; auto. split; [|discriminate]. intros _ _. destruct (H1 eq_refl (or_intror CI)) as [path [t [A [B [C [D D']]]]]].
        assert (IC : incube z0 s ((x, y, z) :: path) (s_ray_at o d t)) by (apply incube_step; rewrite <- dvec_shift, <- at_sub; exact C).
        exists ((x, y, z) :: path), t. cbn [listed]. rewrite EC. split; [auto|]. split; [auto|]. split; [auto|]. split; [auto|].
        intros path' a b L C' LE DU. destruct path' as [|[[x' y'] z'] r]; [discriminate|]. destruct L as [_ L].
        destruct (step_dec (x', y', z') (x, y, z)) as [EQ|NE].
        * injection EQ as -> -> ->. rewrite EC in L. apply (D' r a b); auto. apply chord_step; auto.
        * pose proof DU as [D1 D2]. pose proof (chord_after s _ _ r o d t0 e a b P X1 NE X3 C' D1) as EA.
          assert (t <= e). { apply X2; [lra|]. apply incube_in in C; [|lra]. apply box_shift. rewrite <- at_sub. exact C. }
          destruct C' as [CL _]. lra.
      + apply SELF. intros r a b L C. apply (H2 eq_refl (ex_intro _ t0 (conj (Rle_refl t0) CI)) r a b L). apply chord_step; auto. }
  destruct (outside (s_ray_at o d t0) s) eqn:EO.
  - destruct fuel as [|fuel]; [lia|]. rewrite node_ray_eq by auto. rewrite EO. destruct oc.
    + exists true, dd. split; [auto|apply FULL].
    + exists false, dd. split; [auto|apply STOP; auto].
  - apply outside_R in EO. apply (IT (steps s del) fuel t0 dd); [lia|apply steps_enough; auto].
Qed.

(** height bound *)
Fixpoint hgt (k : nat) (n : node R) : Prop :=
  match n with
  | Null => True
  | Node _ _ _ ch => match k with O => False | S k => forall x y z, hgt k (ch x y z) end
  end.
Lemma hgt_le : forall k n, hgt k n -> forall k', (k <= k')%nat -> hgt k' n.
Proof.
  induction k; intros [|s sp o ch] H k' L; try (destruct k'; exact I); [contradiction|].
  destruct k' as [|k']; [lia|]. cbn in *. intros. apply IHk; auto. lia.
Qed.
Lemma hgt_ex : forall n, exists k, hgt k n.
Proof.
  induction n as [|s sp o ch IH]; [exists O; exact I|].
  destruct (IH true true true) as [a Ha], (IH true true false) as [b Hb], (IH true false true) as [c Hc], (IH true false false) as [d Hd],
    (IH false true true) as [e He], (IH false true false) as [f Hf], (IH false false true) as [g Hg], (IH false false false) as [h Hh].
  exists (S (a + b + c + d + e + f + g + h)). intros [] [] []; eapply hgt_le; eauto; lia.
Qed.


(** what a clearing pass from t0 to t1 does to node n, giving n' *)
Definition cleared (s del : R) (o d : vec3 R) (t0 t1 : R) (n n' : node R) : Prop :=
  (forall path, occ n' path -> occ n path) /\
  (forall path, occ n path -> ~ occ n' path -> exists t, t0 <= t <= t1 /\ incube z0 s path (s_ray_at o d t)) /\
  ((exists t, t <= t0 /\ s_in_box z0 (hi3 s) (s_ray_at o d t)) ->
   forall path a b, chord z0 s path o d a b -> due t0 del a b -> t0 <= t1 -> (a < t0 \/ a + del <= t1) -> ~ occ n' path).

Lemma cleared_same : forall s del o d t0 t1 n, (t1 < t0 \/ (0 < s /\ ~ s_in_box z0 (hi3 s) (s_ray_at o d t0))) -> cleared s del o d t0 t1 n n.
Proof.
  intros s del o d t0 t1 n H. split; [auto|]. split; [intros; contradiction|]. intros [t [T1 T2]] path a b [CL C] [D1 D2] T _ _.
  destruct H as [H|[P H]]; [lra|]. apply H.
  set (u := if Rle_dec a t0 then (t0 + b) / 2 else (a + b) / 2).
  assert (U : t0 < u /\ a < u < b) by (unfold u; destruct (Rle_dec a t0); lra).
  apply (in_between o d s t t0 u); [lra|auto|]. apply (incube_in s path); auto; apply scube_incube, C; tauto.
Qed.

Lemma occ_set : forall s sp o ch x y z c r st, occ (Node s sp o (set_ch ch x y z c)) (st :: r) <->
  (st = (x, y, z) /\ occ c r) \/ (st <> (x, y, z) /\ occ (Node s sp o ch) (st :: r)).
Proof.
  intros s sp o ch x y z c r [[x' y'] z']. cbn [occ]. destruct (step_dec (x', y', z') (x, y, z)) as [E|N].
  - injection E as -> -> ->. rewrite set_ch_eq. intuition congruence.
  - rewrite set_ch_neq by congruence. intuition congruence.
Qed.

Lemma occ_dec : forall path (n : node R), occ n path \/ ~ occ n path.
Proof.
  induction path as [|[[x y] z] r IH]; intros [|s sp o ch]; cbn [occ]; auto. destruct o; [left|right]; congruence.
Qed.
Lemma Rlt_plus_1' : forall e del : R, 0 < del -> e < e + del.
Proof. intros. lra. Qed.
Lemma node_raytrace_spec : forall res, 0 < res -> forall k s, 0 < s ->
  exists F, forall n, hgt k n -> sized s n -> nonnull n -> forall fuel, (F <= fuel)%nat -> forall o d t0 t1, gen d ->
  exists n', node_raytrace fuel res n o d t0 t1 = Ret n' /\ hgt k n' /\ sized s n' /\ nonnull n' /\ cleared s (res * (1/10)) o d t0 t1 n n'.
Proof.
  intros res RP. induction k as [|k IH]; intros s P.
  { exists O. intros [|s' sp oc ch] H; [intros _ C|]; contradiction. }
  set (del := res * (1/10)). assert (DP : 0 < del) by (unfold del; lra).
  destruct (IH (s/2)) as [Fc HC]; [lra|]. clear IH.
  exists (Fc + steps s del + 2)%nat. intros n HN ZN NN fuel LF o d t0 t1 G.
  assert (IT : forall m fuel n t0, hgt (S k) n -> sized s n -> nonnull n -> (Fc + m + 1 <= fuel)%nat ->
    (forall t, t0 + INR m * del <= t -> ~ s_in_box z0 (hi3 s) (s_ray_at o d t)) ->
    exists n', node_raytrace fuel res n o d t0 t1 = Ret n' /\ hgt (S k) n' /\ sized s n' /\ nonnull n' /\ cleared s del o d t0 t1 n n').
  { clear n HN ZN NN fuel LF t0. induction m as [|m IHm]; intros fuel n t0 HN ZN NN LF OUT; (destruct fuel as [|fuel]; [lia|]);
      (destruct n as [|s' sp oc ch]; [contradiction|]); destruct ZN as [-> [-> ZN]]; rewrite node_raytrace_eq; set (p := s_ray_at o d t0) in *.
    all: destruct (Rltb t1 t0) eqn:ET;
      [apply Rltb_true in ET; eexists; split; [reflexivity|]; split; [exact HN|]; split; [cbn; auto|]; split; [exact I|]; apply cleared_same; auto|].
    all: apply Rltb_false in ET; destruct (outside p s) eqn:EO;
      [eexists; split; [reflexivity|]; split; [exact HN|]; split; [cbn; auto|]; split; [exact I|]; apply cleared_same; right; split; auto;
       intros NI; apply outside_R in NI; unfold p in *; congruence|].
    { exfalso. apply outside_R in EO. apply (OUT t0); auto. cbn [INR]. lra. }
    apply outside_R in EO. assert (PI := pick_in s p EO). destruct (pick s p) as [[x y] z] eqn:EP.
    destruct (exit_spec s (dvec s (x, y, z)) o d t0 t1 P G PI) as [X1 X2]. fold p in X1, X2.
    set (e := node_exit s (dvec s (x, y, z)) p d t0 t1) in *. cbv zeta in X2. fold (dhi s (x, y, z)) in X2.
    assert (CI : s_in_box z0 (hi3 (s/2)) (s_ray_at (vsub o (dvec s (x, y, z))) d t0)).
    { rewrite at_sub. apply box_shift. exact PI. }
    (* the child *)
    assert (CH : exists ch', match ch x y z with
             | Null => Ret ch
             | Node _ _ _ _ => let* c' := node_raytrace fuel res (ch x y z) (vsub o (dvec s (x, y, z))) d t0 t1 in Ret (set_ch ch x y z c') end = Ret ch' /\
             (forall a b c, hgt k (ch' a b c) /\ sized (s/2) (ch' a b c)) /\
             cleared (s/2) del (vsub o (dvec s (x, y, z))) d t0 t1 (ch x y z) (ch' x y z) /\
             (forall a b c, (a, b, c) <> (x, y, z) -> ch' a b c = ch a b c)).
    { destruct (ch x y z) as [|s2 sp2 o2 ch2] eqn:EC.
      - exists ch. split; auto. split; [auto|]. split; auto. rewrite EC. split; [auto|]. split; [intros [|[[? ?] ?] ?] []|].
        intros _ [|[[? ?] ?] ?] ? ? _ _ _ _ [].
      - destruct (HC (ch x y z)) with (fuel := fuel) (o := vsub o (dvec s (x, y, z))) (d := d) (t0 := t0) (t1 := t1) as [c' [E [A [B [C D]]]]]; auto.
        { rewrite EC. exact I. } { lia. }
        rewrite EC in E. rewrite E. cbn [obind]. exists (set_ch ch x y z c'). split; auto. split; [|split].
        + intros a b c. destruct (step_dec (a, b, c) (x, y, z)) as [Q|Q].
          * injection Q as -> -> ->. rewrite set_ch_eq. auto.
          * rewrite set_ch_neq by congruence. split; [apply HN|apply ZN].
        + rewrite set_ch_eq, <- EC. exact D.
        + intros a b c Q. apply set_ch_neq. congruence. }
    destruct CH as [ch' [-> [C1 [[M1 [M2 M3]] C3]]]]. cbn [obind].
    destruct (IHm fuel (Node s (s/2) false ch') (e + res * (1/10))) as [n' [E [A [B [C [D1 [D2 D3]]]]]]].
    { intros a b c. apply C1. } { cbn. split; auto. split; auto. intros. apply C1. } { exact I. } { lia. }
    { intros t T. apply OUT. rewrite S_INR. unfold del in *. lra. }
    exists n'. split; auto. split; auto. split; auto. split; auto.
    assert (MONO : forall st r, occ (Node s (s/2) false ch') (st :: r) -> occ (Node s (s/2) oc ch) (st :: r)).
    { intros [[a b] c] r H. cbn [occ] in *. destruct (step_dec (a, b, c) (x, y, z)) as [Q|Q].
      - injection Q as -> -> ->. auto.
      - rewrite C3 in H; auto. }
    split; [|split].
    - intros path H. apply D1 in H. destruct path as [|st r]; [discriminate|]. auto.
    - intros path H N. destruct path as [|[[a b] c] r].
      { exists t0. split; [lra|]. apply incube_nil. exact EO. }
      assert (DEC : occ (Node s (s/2) false ch') ((a, b, c) :: r) \/ ~ occ (Node s (s/2) false ch') ((a, b, c) :: r)) by (apply occ_dec).
      destruct DEC as [Y|Y].
      + destruct (D2 _ Y N) as [t [T1 T2]]. exists t. split; auto. unfold del in *. lra.
      + cbn [occ] in Y, H. destruct (step_dec (a, b, c) (x, y, z)) as [Q|Q].
        * injection Q as -> -> ->. destruct (M2 _ H Y) as [t [T1 T2]]. exists t. split; auto. apply incube_step. rewrite <- dvec_shift, <- at_sub. exact T2.
        * rewrite C3 in Y by auto. contradiction.
    - intros _ path a b CHD [U1 U2] T V. pose proof CHD as [CL C']. destruct path as [|[[a' b'] c'] r].
      { intros H. apply D1 in H. discriminate. }
      destruct (step_dec (a', b', c') (x, y, z)) as [Q|Q].
      + injection Q as -> -> ->. intros H. apply D1 in H. cbn [occ] in H.
        apply (M3 (ex_intro _ t0 (conj (Rle_refl t0) CI)) r a b); auto; [apply chord_step; auto|split; auto].
      + assert (NT : forall t, t0 <= t <= e -> ~ a < t < b).
        { intros t T' K. apply Q. apply (strict_disjoint s _ _ (s_ray_at o d t) P); [eapply scube_child; eauto|]. apply X2; tauto. }
        assert (EA : e <= a).
        { apply Rnot_lt_le. intros K. destruct (Rlt_dec a t0) as [AA|AA].
          - apply (NT t0); lra.
          - destruct (Rle_dec e b); [apply (NT ((a + e)/2)); lra|apply (NT ((a + b)/2)); lra]. }
        apply (D3 (ex_intro _ t0 (conj (Rle_trans _ _ _ X1 (Rlt_le _ _ (Rlt_plus_1' e _ DP))) EO)) _ a b CHD).
        * destruct U2 as [U2|U2]; [lra|]. split; [unfold del in *; lra|]. right. unfold del in *. lra.
        * unfold del in *. lra.
        * unfold del in *. lra. }
  destruct (outside (s_ray_at o d t0) s) eqn:EO.
  - destruct fuel as [|fuel]; [lia|]. destruct n as [|s' sp oc ch]; [contradiction|]. destruct ZN as [-> [-> ZN]].
    rewrite node_raytrace_eq, EO. exists (Node s (s/2) oc ch). split; [destruct (Rltb t1 t0); auto|]. split; [exact HN|]. split; [cbn; auto|]. split; [exact I|].
    apply cleared_same. right. split; auto. intros NI; apply outside_R in NI; congruence.
  - apply outside_R in EO. apply (IT (steps s del) fuel n t0); auto; [lia|apply steps_enough; auto].
Qed.
