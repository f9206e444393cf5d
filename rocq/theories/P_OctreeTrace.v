(** Octree ray tracing over the reals at the level of the API. *)
From Coq Require Import ZArith NArith List Bool Lia Reals Lra Psatz Arith.
From Verif Require Import Num MathTypes Outcome Mesh Box Composite Octree Spec SpecOctree NumOrd P_Tac P_Math P_Box P_BoxMesh P_Composite P_Octree P_OctreeRay P_OctreeRun P_OctreeQ.
Import ListNotations.
Local Open Scope R_scope.

Lemma inv1_sign : forall x : R, if Rltb x 0 then inv1 x <= 0 else 0 <= inv1 x.
Proof.
  intros x. destruct (Rle_dec (1/1000000000) (Rabs x)) as [B|B].
  - unfold inv1. unR. unfold Rabs in *. destruct (Rcase_abs x) as [C|C].
    + replace (Rltb x 0) with true by (symmetry; apply Rltb_true; lra).
      assert (/ x < 0) by (apply Rinv_lt_0_compat; lra). repeat rcase; lra || (unfold Rdiv; lra).
    + replace (Rltb x 0) with false by (symmetry; apply Rltb_false; lra).
      assert (0 < / x) by (apply Rinv_0_lt_compat; lra). repeat rcase; lra || (unfold Rdiv; lra).
  - rewrite (inv1_small x) by (unfold bignum; lra). destruct (Rltb x 0); lra.
Qed.
(** shooting from inside a box never reports a positive entry, whatever the direction *)
Lemma inside_entry : forall (b : box R) o d t0 t1, s_in_box (b_min b) (b_max b) o ->
  snd (box_ray b (ray_make o d) t0 t1 (n0 / n0)%num) <= 0.
Proof.
  intros b o d t0 t1 [A [B C]]. unfold box_ray. rewrite !nmax_R, !nmin_R. unfold ray_make. cbn [r_o r_d r_inv r_s0 r_s1 r_s2 vx vy vz].
  cbn [nsub nmul nf32 nltb NumR ndiv n0 nofZ].
  assert (X := inv1_sign (vx (vnormalized d))). assert (Y := inv1_sign (vy (vnormalized d))). assert (Z := inv1_sign (vz (vnormalized d))).
  set (ix := inv1 (vx (vnormalized d))) in *. set (iy := inv1 (vy (vnormalized d))) in *. set (iz := inv1 (vz (vnormalized d))) in *.
  assert (K : forall (s : bool) (i lo hi p : R), (if s then i <= 0 else 0 <= i) -> lo <= p <= hi -> ((if s then hi else lo) - p) * i <= 0) by (intros [] i lo hi p ? ?; nra).
  assert (HX : (vx (bnd b (Rltb (vx (vnormalized d)) 0)) - vx o) * ix <= 0).
  { unfold bnd. pose proof (K _ _ _ _ _ X A) as Q. destruct (Rltb (vx (vnormalized d)) 0); exact Q. }
  assert (HY : (vy (bnd b (Rltb (vy (vnormalized d)) 0)) - vy o) * iy <= 0).
  { unfold bnd. pose proof (K _ _ _ _ _ Y B) as Q. destruct (Rltb (vy (vnormalized d)) 0); exact Q. }
  assert (HZ : (vz (bnd b (Rltb (vz (vnormalized d)) 0)) - vz o) * iz <= 0).
  { unfold bnd. pose proof (K _ _ _ _ _ Z C) as Q. destruct (Rltb (vz (vnormalized d)) 0); exact Q. }
  assert (D0 : 0 / 0 <= 0) by (unfold Rdiv; rewrite Rmult_0_l; lra).
  repeat match goal with |- context [if ?c then _ else _] => match c with context [orb] => destruct c; [exact D0|] end end.
  cbn [snd]. repeat apply Rmax_lub; auto.
Qed.
Lemma exit_ge : forall s dv p d t0 t1, 0 < s -> s_in_box dv (V3 (vx dv + s/2) (vy dv + s/2) (vz dv + s/2)) p -> t0 <= node_exit s dv p d t0 t1.
Proof.
  intros s dv p d t0 t1 P I. unfold node_exit.
  pose proof (inside_entry (box_make dv (V3 (vx dv + s/2) (vy dv + s/2) (vz dv + s/2))) p (vopp d) (nofZ 0) (nf32 (t1 - t0)%num) I) as H.
  cbn [nsub nadd ndiv NumR n2 nofZ] in *. lra.
Qed.

(** *** frame of raytrace: any direction *)
Definition trimmed (s : R) (o d : vec3 R) (t0 t1 : R) (n n' : node R) : Prop :=
  (forall path, occ n' path -> occ n path) /\
  (forall path, occ n path -> ~ occ n' path -> exists t, t0 <= t <= t1 /\ incube z0 s path (s_ray_at o d t)).
Lemma node_raytrace_any : forall res, 0 < res -> forall N k s, 0 < s ->
  exists F, forall n, hgt k n -> sized s n -> nonnull n -> forall fuel, (F <= fuel)%nat -> forall o d t0 t1, t1 - t0 < INR N * (res * (1/10)) ->
  exists n', node_raytrace fuel res n o d t0 t1 = Ret n' /\ hgt k n' /\ sized s n' /\ nonnull n' /\ trimmed s o d t0 t1 n n'.
Proof.
  intros res RP N. induction k as [|k IH]; intros s P.
  { exists O. intros [|s' sp oc ch] H; [intros _ C|]; contradiction. }
  set (del := res * (1/10)). assert (DP : 0 < del) by (unfold del; lra).
  destruct (IH (s/2)) as [Fc HC]; [lra|]. clear IH.
  exists (Fc + N + 2)%nat. intros n HN ZN NN fuel LF o d t0 t1 TN.
  assert (IT : forall m fuel n t0, (m <= N)%nat -> hgt (S k) n -> sized s n -> nonnull n -> (Fc + m + 1 <= fuel)%nat -> t1 - t0 < INR m * del ->
    exists n', node_raytrace fuel res n o d t0 t1 = Ret n' /\ hgt (S k) n' /\ sized s n' /\ nonnull n' /\ trimmed s o d t0 t1 n n').
  { clear n HN ZN NN fuel LF t0 TN. induction m as [|m IHm]; intros fuel n t0 MN HN ZN NN LF OUT; (destruct fuel as [|fuel]; [lia|]);
      (destruct n as [|s' sp oc ch]; [contradiction|]); destruct ZN as [-> [-> ZN]]; rewrite node_raytrace_eq; set (p := s_ray_at o d t0) in *.
    all: destruct (Rltb t1 t0) eqn:ET;
      [apply Rltb_true in ET; eexists; split; [reflexivity|]; split; [exact HN|]; split; [cbn; auto|]; split; [exact I|]; split; [auto|intros; contradiction]|].
    all: apply Rltb_false in ET; destruct (outside p s) eqn:EO;
      [eexists; split; [reflexivity|]; split; [exact HN|]; split; [cbn; auto|]; split; [exact I|]; split; [auto|intros; contradiction]|].
    { exfalso. cbn [INR] in OUT. lra. }
    apply outside_R in EO. assert (PI := pick_in s p EO). destruct (pick s p) as [[x y] z] eqn:EP.
    assert (X1 := exit_ge s (dvec s (x, y, z)) p d t0 t1 P PI).
    set (e := node_exit s (dvec s (x, y, z)) p d t0 t1) in *.
    assert (CI : s_in_box z0 (hi3 (s/2)) (s_ray_at (vsub o (dvec s (x, y, z))) d t0)).
    { rewrite at_sub. apply box_shift. exact PI. }
    assert (CH : exists ch', match ch x y z with
             | Null => Ret ch
             | Node _ _ _ _ => let* c' := node_raytrace fuel res (ch x y z) (vsub o (dvec s (x, y, z))) d t0 t1 in Ret (set_ch ch x y z c') end = Ret ch' /\
             (forall a b c, hgt k (ch' a b c) /\ sized (s/2) (ch' a b c)) /\
             trimmed (s/2) (vsub o (dvec s (x, y, z))) d t0 t1 (ch x y z) (ch' x y z) /\
             (forall a b c, (a, b, c) <> (x, y, z) -> ch' a b c = ch a b c)).
    { destruct (ch x y z) as [|s2 sp2 o2 ch2] eqn:EC.
      - exists ch. split; auto. split; [auto|]. split; auto. rewrite EC. split; [auto|]. intros [|[[? ?] ?] ?] [].
      - destruct (HC (ch x y z)) with (fuel := fuel) (o := vsub o (dvec s (x, y, z))) (d := d) (t0 := t0) (t1 := t1) as [c' [E [A [B [C D]]]]]; auto.
        { rewrite EC. exact I. } { lia. }
        { apply Rlt_le_trans with (1 := OUT). apply Rmult_le_compat_r; [unfold del; lra|]. apply le_INR. auto. }
        rewrite EC in E. rewrite E. cbn [obind]. exists (set_ch ch x y z c'). split; auto. split; [|split].
        + intros a b c. destruct (step_dec (a, b, c) (x, y, z)) as [Q|Q].
          * injection Q as -> -> ->. rewrite set_ch_eq. auto.
          * rewrite set_ch_neq by congruence. split; [apply HN|apply ZN].
        + rewrite set_ch_eq, <- EC. exact D.
        + intros a b c Q. apply set_ch_neq. congruence. }
    destruct CH as [ch' [-> [C1 [[M1 M2] C3]]]]. cbn [obind].
    destruct (IHm fuel (Node s (s/2) false ch') (e + res * (1/10))) as [n' [E [A [B [C [D1 D2]]]]]].
    { lia. } { intros a b c. apply C1. } { cbn. split; auto. split; auto. intros. apply C1. } { exact I. } { lia. }
    { rewrite S_INR in OUT. unfold del in *. lra. }
    exists n'. split; auto. split; auto. split; auto. split; auto.
    assert (MONO : forall st r, occ (Node s (s/2) false ch') (st :: r) -> occ (Node s (s/2) oc ch) (st :: r)).
    { intros [[a b] c] r H. cbn [occ] in *. destruct (step_dec (a, b, c) (x, y, z)) as [Q|Q].
      - injection Q as -> -> ->. auto.
      - rewrite C3 in H; auto. }
    split.
    - intros path H. apply D1 in H. destruct path as [|st r]; [discriminate|]. auto.
    - intros path H NO. destruct path as [|[[a b] c] r].
      { exists t0. split; [lra|]. apply incube_nil. exact EO. }
      destruct (occ_dec ((a, b, c) :: r) (Node s (s/2) false ch')) as [Y|Y].
      + destruct (D2 _ Y NO) as [t [T1 T2]]. exists t. split; auto. unfold del in *. lra.
      + cbn [occ] in Y, H. destruct (step_dec (a, b, c) (x, y, z)) as [Q|Q].
        * injection Q as -> -> ->. destruct (M2 _ H Y) as [t [T1 T2]]. exists t. split; auto. apply incube_step. rewrite <- dvec_shift, <- at_sub. exact T2.
        * rewrite C3 in Y by auto. contradiction. }
  apply (IT N fuel n t0); auto; lia.
Qed.

Lemma bounded_steps : forall x del, 0 < del -> exists N, x < INR N * del.
Proof.
  intros x del D. assert (H : exists N, x / del < INR N).
  { destruct (archimed (x / del)) as [A _]. destruct (Z_le_gt_dec 0 (up (x / del))) as [L|L].
    - exists (Z.to_nat (up (x / del))). rewrite INR_IZR_INZ, Z2Nat.id by auto. lra.
    - exists 0%nat. cbn. assert (IZR (up (x / del)) < 0) by (apply IZR_lt; lia). lra. }
  destruct H as [N H]. exists N. apply Rmult_lt_compat_r with (r := del) in H; auto.
  replace (x / del * del) with x in H by (field; lra). exact H.
Qed.

Definition inside (c c' : box R) : Prop := forall p, s_in_box (b_min c) (b_max c) p -> s_in_box (b_min c') (b_max c') p.
Lemma pm_nil : forall off S, pmin off S [] = off /\ pmax off S [] = vadd off (V3 S S S).
Proof. intros [a b c] S. unfold pmin, pmax, s_cmin, s_cmax. cbn [length ax map zval vx vy vz]. rewrite side_0. unmath. split; apply V3_eq; ring. Qed.
Lemma path_inside : forall off S p q, 0 < S -> inside (box_make (pmin off S (p ++ q)) (pmax off S (p ++ q))) (box_make (pmin off S p) (pmax off S p)).
Proof.
  intros off S p. revert off S. induction p as [|[[x y] z] p IH]; intros off S q P; unfold inside; cbn [box_make b_min b_max].
  - intros v. cbn [app]. pose proof (path_bounds off S q P) as B. destruct (pm_nil off S) as [-> ->]. revert B.
    generalize (pmin off S q) (pmax off S q) (vadd off (V3 S S S)). intros. unfold inb, s_in_box in *. lra.
  - intros v. cbn [app]. rewrite !pmin_step, !pmax_step. apply (IH (shift off S x y z) (S/2) q). lra.
Qed.

Definition end_cell (S : R) (o : octree R) (p : vec3 R) (e : box R) : Prop :=
  exists k i j l, s_level S (o_res o) k /\ s_cell S k (s_diff p (o_off o)) i j l /\ e = box_make (s_cmin (o_off o) S k i j l) (s_cmax (o_off o) S k i j l).

Lemma occ_end : forall S o k p path, 0 < S -> s_level S (o_res o) k -> path = dpath S k (vsub p (o_off o)) ->
  end_cell S o p (box_make (pmin (o_off o) S path) (pmax (o_off o) S path)).
Proof.
  intros S o k p path P K ->. eexists k, _, _, _. split; auto. split; [apply dpath_cell|]. unfold pmin, pmax. rewrite dpath_len. reflexivity.
Qed.

Lemma oct_raytrace_spec : forall S o, 0 < S -> oinv S o -> forall org d t0 t1,
  exists F, forall fuel, (F <= fuel)%nat ->
  exists o', oct_raytrace fuel o (ray_make org d) t0 t1 = Ret o' /\ oinv S o' /\ o_res o' = o_res o /\
  let ray t := s_ray_at org (s_unit d) t in
  let cubes := oct_cubes o [] in let cubes' := oct_cubes o' [] in
  (forall c, In c cubes' -> (exists c0, In c0 cubes /\ inside c c0) \/ end_cell S o (ray t1) c) /\
  (forall c, In c cubes -> ~ (exists c', In c' cubes' /\ inside c c') -> exists t, t0 <= t <= t1 /\ s_in_box (b_min c) (b_max c) (ray t)) /\
  (fst (box_ray (box_make (o_off o) (o_max o)) (ray_make org d) t0 t1 (n0 / n0)%num) = true ->
     exists c c', end_cell S o (ray t1) c /\ In c' cubes' /\ inside c c') /\
  (fst (box_ray (box_make (o_off o) (o_max o)) (ray_make org d) t0 t1 (n0 / n0)%num) = false -> o' = o) /\
  (s_general_dir d -> start_ok o org t0 -> forall c a b, In c cubes -> bchord c org (s_unit d) a b ->
     t0 <= a -> a + o_res o * (1/10) <= t1 -> o_res o * (1/10) < b - a -> In c cubes' -> end_cell S o (ray t1) c).
Proof.
  intros S o P I org d t0 t1. pose proof I as [J1 J2 J3 J4 J5 [m J6]]. assert (RP : 0 < o_res o) by (rewrite J6; apply side_pos; auto).
  set (del := o_res o * (1/10)). assert (DP : 0 < del) by (unfold del; lra).
  destruct (level_ex S (o_res o) P RP) as [k K]. destruct (hgt_ex (o_root o)) as [hk HK].
  destruct (bounded_steps (t1 - t0) del DP) as [N HN].
  destruct (node_raytrace_any (o_res o) RP N hk S P) as [F1 H1].
  destruct (node_raytrace_spec (o_res o) RP hk S P) as [F2 H2].
  exists (F1 + F2 + k + 1)%nat. intros fuel LF.
  unfold oct_raytrace. destruct (box_ray (box_make (o_off o) (o_max o)) (ray_make org d) t0 t1 (n0 / n0)%num) as [hit dist] eqn:EB. cbn [fst].
  assert (CH : s_general_dir d -> exists lo hi, (forall t, s_in_box (o_off o) (o_max o) (s_ray_at org (s_unit d) t) <-> lo <= t <= hi) /\
             ((lo <= hi /\ hit = (Rltb t0 hi && Rltb lo t1)%bool /\ dist = lo) \/ (hi < lo /\ hit = false)) /\
             forall c a b, In c (oct_cubes o []) -> bchord c org (s_unit d) a b -> exists path, c = box_make (pmin (o_off o) S path) (pmax (o_off o) S path) /\
               chord z0 S path (vsub org (off_of S)) (s_unit d) a b /\ lo <= a /\ b <= hi).
  { intros G. destruct (oct_slab S o org d P I G) as [lo [hi [SL BR]]]. exists lo, hi. split; auto. split.
    - destruct (BR t0 t1 (n0 / n0)%num) as [[L E]|[L E]]; rewrite E in EB; injection EB as <- <-; auto.
    - intros c a b C [L' C']. unfold oct_cubes in C. cbn [app] in C. apply (cubes_in _ S) in C; auto. destruct C as [path [LI ->]]. cbn [box_make b_min b_max] in C'. rewrite J2 in C'.
      exists path. split; auto. split; [split; auto; intros t T; apply scube_org; apply C'; auto|].
      apply (chord_lo (off_of S) S path org (s_unit d) a b lo hi P); [|split; auto]. intros t. rewrite max_is. rewrite <- J2, <- J3. apply SL. }
  destruct hit; cbn [negb].
  2:{ exists o. split; auto. split; auto. split; auto. cbv zeta. split; [intros c C; left; exists c; split; auto; intros ? ?; auto|].
      split; [intros c C NI; exfalso; apply NI; exists c; split; auto; intros ? ?; auto|]. split; [discriminate|]. split; [auto|].
      intros G SO c a b C C' T1 T2 LT. exfalso. destruct (CH G) as [lo [hi [SL [HH CC]]]]. destruct (CC c a b C C') as [path [_ [[CL _] [A B]]]].
      destruct HH as [[_ [HH _]]|[HH _]]; [|lra]. symmetry in HH. apply andb_false_iff in HH. rewrite !Rltb_false in HH. fold del in T2. lra. }
  change (r_d (ray_make org d)) with (s_unit d). change (r_o (ray_make org d)) with org. rewrite J2, nmax_R.
  cbn [nf32 nadd nmul NumR n0 nofZ]. change (nlit 1 10) with (1/10). fold del. set (st := t0 + Rmax dist 0 + del).
  assert (M0 := Rmax_r dist 0).
  destruct (H1 (o_root o) HK J4 J5 fuel ltac:(lia) (vsub org (off_of S)) (s_unit d) st t1) as [n [E [G1 [G2 [G3 [M1 M2]]]]]].
  { fold del. unfold st. lra. }
  rewrite E. cbn [obind]. unfold oct_add. cbn [o_res o_root o_off]. rewrite at_eq.
  destruct (add_spec k fuel S (o_res o) n (vsub (s_ray_at org (s_unit d) t1) (off_of S))) as [n' [E' [A1 [A2 A3]]]]; auto; [lia|].
  rewrite E'. cbn [obind]. set (o' := Oct _ _ _ _ _ n' _).
  exists o'. split; auto. split; [constructor; cbn; eauto|]. split; auto. cbv zeta.
  set (ep := s_ray_at org (s_unit d) t1) in *.
  assert (CI : forall c, In c (oct_cubes o []) <-> exists path, listed (o_root o) path /\ c = box_make (pmin (o_off o) S path) (pmax (o_off o) S path)).
  { intros c. unfold oct_cubes. cbn [app]. apply cubes_in; auto. }
  assert (CI' : forall c, In c (oct_cubes o' []) <-> exists path, listed n' path /\ c = box_make (pmin (o_off o) S path) (pmax (o_off o) S path)).
  { intros c. unfold oct_cubes. cbn [app o' o_root o_off]. rewrite J2. apply cubes_in; auto. }
  assert (COV : forall path, occ (o_root o) path -> exists c0, In c0 (oct_cubes o []) /\ inside (box_make (pmin (o_off o) S path) (pmax (o_off o) S path)) c0).
  { intros path OC. destruct (occ_listed _ _ OC) as [p [q [-> L]]]. eexists. split; [apply CI; eauto|]. apply path_inside; auto. }
  assert (COV' : forall path, occ n' path -> exists c0, In c0 (oct_cubes o' []) /\ inside (box_make (pmin (o_off o) S path) (pmax (o_off o) S path)) c0).
  { intros path OC. destruct (occ_listed _ _ OC) as [p [q [-> L]]]. eexists. split; [apply CI'; eauto|]. apply path_inside; auto. }
  split; [|split; [|split; [|split; [discriminate|]]]].
  - intros c C. apply CI' in C. destruct C as [path [L ->]]. pose proof L as L0. apply listed_occ in L0. destruct L0 as [OC _]. apply A3 in OC. destruct OC as [OC|OC].
    + left. apply COV. auto.
    + right. apply (occ_end S o k ep path); auto. rewrite J2. auto.
  - intros c C NI. apply CI in C. destruct C as [path [L ->]]. apply listed_occ in L. destruct L as [OC _]. 
    destruct (M2 path OC) as [t [T1 T2]].
    { intros ON. apply NI. apply COV'. apply A3. auto. }
    exists t. split; [unfold st in T1; lra|]. cbn [box_make b_min b_max]. rewrite J2. apply incube_org. exact T2.
  - intros _. set (path := dpath S k (vsub ep (off_of S))). destruct (COV' path) as [c' [C1 C2]]; [apply A3; auto|].
    eexists _, c'. split; [|split; [exact C1|exact C2]]. apply (occ_end S o k ep path); auto. rewrite J2. auto.
  - intros G SO c a b C C' T1 T2 LT IN. destruct (CH G) as [lo [hi [SL [HH CC]]]]. destruct (CC c a b C C') as [path [-> [CZ [A B]]]].
    destruct HH as [[LH [HH ->]]|[_ HH]]; [|discriminate].
    assert (ST : st <= t1 /\ 0 <= t0 /\ due st del a b).
    { assert (ML := Rmax_l lo 0). destruct SO as [->|[T IO]].
      - assert (Rmax lo 0 <= a) by (apply Rmax_lub; lra). split; [unfold st; fold del in T2; lra|]. split; [lra|]. split; [unfold st; fold del in LT; lra|]. right. fold del in LT. lra.
      - assert (LO : lo <= 0). { apply SL. replace (s_ray_at org (s_unit d) 0) with org; auto. destruct org as [e f g]. unfold s_ray_at. cbn [vx vy vz]. apply V3_eq; ring. }
        assert (Rmax lo 0 = 0) by (apply Rmax_right; auto). split; [unfold st; fold del in T2; lra|]. split; auto. split; [unfold st; fold del in LT; lra|]. right. fold del in LT. lra. }
    destruct ST as [S1 [S2 S3]].
    destruct (H2 (o_root o) HK J4 J5 fuel ltac:(lia) (vsub org (off_of S)) (s_unit d) st t1 (gen_unit d G)) as [n2 [E2 [_ [_ [_ [_ [_ D3]]]]]]].
    rewrite E in E2. injection E2 as <-. fold del in D3.
    assert (NO : ~ occ n path).
    { apply (D3) with (a := a) (b := b); auto.
      - exists lo. split; [assert (ML := Rmax_l lo 0); unfold st; lra|]. apply root_org. rewrite <- J2, <- J3. apply SL. lra.
    }
    apply CI' in IN. destruct IN as [path' [L' EQ]].
    assert (PE : path' = path).
    { clear - EQ P. assert (E1 := f_equal b_min EQ). assert (E2 := f_equal b_max EQ). cbn [box_make b_min b_max] in *. clear EQ.
      assert (SIDE : s_side S (length path') = s_side S (length path)).
      { unfold pmin, pmax, s_cmin, s_cmax in E1, E2. injection E1 as A1 _ _. injection E2 as A2 _ _. lra. }
      assert (K : length path' = length path).
      { destruct (Nat.lt_trichotomy (length path') (length path)) as [Q|[Q|Q]]; auto; exfalso.
        - pose proof (side_mono S (Datatypes.S (length path')) (length path) P Q) as M. rewrite side_half in M. pose proof (side_pos S (length path') P). lra.
        - pose proof (side_mono S (Datatypes.S (length path)) (length path') P Q) as M. rewrite side_half in M. pose proof (side_pos S (length path') P). lra. }
      assert (SP := side_pos S (length path) P).
      assert (INJ : forall off a b, off + s_side S (length path) * IZR a = off + s_side S (length path) * IZR b -> a = b) by (intros; apply eq_IZR; nra).
      unfold pmin, s_cmin in E1. rewrite K in E1. injection E1 as A1 A2 A3. apply INJ in A1, A2, A3. apply path_inj; auto. }
    subst path'. pose proof L' as L0. apply listed_occ in L0. destruct L0 as [OC _]. apply A3 in OC. destruct OC as [OC|OC]; [contradiction|].
    apply (occ_end S o k ep path); auto. rewrite J2. auto.
Qed.
