(** * Depth camera over the reals: drawTriangle2D draws the footprint of the moved triangle *)
From Coq Require Import ZArith NArith List Bool Lia Reals Lra Permutation.
From Flocq Require Import Core.Raux.
From Verif Require Import Num NumOrd MathTypes Outcome Mesh Spec P_Tac P_Math P_MeshGeo Depth P_Depth P_Depth3 P_Depth4 SpecDepth P_Depth5.
Import ListNotations.
Local Open Scope R_scope.

(** image coordinates can be cast to int, and the rows span at most the range of int *)
Definition coords_ok (p1 p2 p3 : vec3 R) : Prop :=
  (forall v, v = p1 \/ v = p2 \/ v = p3 -> castable (vx v) /\ castable (vy v) /\ (-2147483648 < Ztrunc (vy v))%Z) /\
  (forall u v, (u = p1 \/ u = p2 \/ u = p3) -> (v = p1 \/ v = p2 \/ v = p3) -> (Ztrunc (vy u) - Ztrunc (vy v) <= 2147483647)%Z).
(** the rejection test on the truncated coordinates *)
Definition touches (w h : Z) (p1 p2 p3 : vec3 R) : bool :=
  (Z.ltb (Z.min (Ztrunc (vx p1)) (Z.min (Ztrunc (vx p2)) (Ztrunc (vx p3)))) w && Z.ltb 0 (Z.max (Ztrunc (vx p1)) (Z.max (Ztrunc (vx p2)) (Ztrunc (vx p3)))) &&
   Z.ltb (Z.min (Ztrunc (vy p1)) (Z.min (Ztrunc (vy p2)) (Ztrunc (vy p3)))) h && Z.ltb 0 (Z.max (Ztrunc (vy p1)) (Z.max (Ztrunc (vy p2)) (Ztrunc (vy p3)))))%bool.
Lemma perm3_in : forall (a b c p q r v : vec3 R), Permutation [a; b; c] [p; q; r] -> (v = p \/ v = q \/ v = r) -> v = a \/ v = b \/ v = c.
Proof. intros a b c p q r v P I. assert (J : In v [p; q; r]) by (cbn; intuition). apply (Permutation_in _ (Permutation_sym P)) in J. cbn in J. intuition. Qed.
Lemma snap_perm : forall a b c p q r : vec3 R, Permutation [a; b; c] [p; q; r] -> Permutation [s_snap a; s_snap b; s_snap c] [s_snap p; s_snap q; s_snap r].
Proof. intros. apply (Permutation_map s_snap) in H. exact H. Qed.
Lemma snap_at : forall v z, Ztrunc (vy v) = z -> s_snap v = V3 (vx v) (IZR z) (vz v). Proof. intros v z <-. reflexivity. Qed.
Lemma shaded_perm : forall a b c p q r w h i px, Permutation [a; b; c] [p; q; r] -> shaded p q r w h i px -> shaded a b c w h i px.
Proof.
  intros a b c p q r w h i px P [I [J [Xa [Da [Xb [Db [A [B K]]]]]]]]. split; auto. split; auto. exists Xa, Da, Xb, Db.
  split; [eapply in_triangle_permut; [apply Permutation_sym; exact P|auto]|]. split; [eapply in_triangle_permut; [apply Permutation_sym; exact P|auto]|]. auto.
Qed.
Lemma foot_perm : forall p1 p2 p3 q1 q2 q3 y X D, Permutation [p1; p2; p3] [q1; q2; q3] -> s_in_row p1 p2 p3 y X D -> s_in_row q1 q2 q3 y X D.
Proof. intros. eapply in_triangle_permut; [apply snap_perm; exact H|exact H0]. Qed.

(** all three vertices in the same row *)
Lemma flat_R : forall w h p1 p2 p3 i y0, coords_ok p1 p2 p3 -> (forall v, v = p1 \/ v = p2 \/ v = p3 -> Ztrunc (vy v) = y0) -> forall m d e, sort3 vx p1 p2 p3 = (m, d, e) ->
  exists ps, drawTrianglePart w h y0 y0 (vx m) 0 (vx e) 0 (vz m) 0 (vz e) 0 i = Ret ps /\ (forall p, In p ps -> shaded (s_snap p1) (s_snap p2) (s_snap p3) w h i p) /\
    forall x y, (0 <= x < w)%Z -> (0 <= y < h)%Z -> s_footprint p1 p2 p3 x y -> drawn_at ps x y.
Proof.
  intros w h p1 p2 p3 i y0 [CA _] Y0 m d e SO. pose proof (sort_perm _ _ _ _ _ _ _ SO) as PM.
  destruct (sort_sorted vx p1 p2 p3 m d e SO) as [L1 L2]. { intros v _. unR. apply Reqb_true. auto. }
  unR. apply Rleb_true in L1. apply Rleb_true in L2.
  assert (IN : forall v, v = m \/ v = d \/ v = e -> v = p1 \/ v = p2 \/ v = p3) by (intros v V; eapply perm3_in; eauto).
  destruct (CA m (IN m (or_introl eq_refl))) as [Cm [_ Rm]]. destruct (CA e (IN e (or_intror (or_intror eq_refl)))) as [Ce _].
  assert (Ym := Y0 m (IN m (or_introl eq_refl))). assert (Yd := Y0 d (IN d (or_intror (or_introl eq_refl)))). assert (Ye := Y0 e (IN e (or_intror (or_intror eq_refl)))).
  assert (Z0 : forall k x : R, x + k * 0 = x) by (intros; ring).
  destruct (part_R w h y0 y0 (vx m) 0 (vx e) 0 (vz m) 0 (vz e) 0 i) as [ps [E P]]; [lia| |].
  { intros y _ _. rewrite !Z0. auto. }
  assert (CO : in_triangle (s_snap m) (s_snap d) (s_snap e) (s_snap m) /\ in_triangle (s_snap m) (s_snap d) (s_snap e) (s_snap e)).
  { split; [exists 1, 0, 0|exists 0, 0, 1]; (split; [lra|]); (split; [lra|]); (split; [lra|]); (split; [lra|]); unfold s_snap; cbn [vx vy vz]; apply V3_eq; ring. }
  exists ps. split; auto. split.
  - intros p I. apply P in I as [y [Y [YI [x [X [XR ->]]]]]]. assert (y = y0) by lia. subst y. rewrite !Z0 in *. eapply shaded_perm; [apply snap_perm; exact PM|].
    split; [split; cbn; lia|]. split; [reflexivity|]. cbn [px_x px_y px_d]. exists (vx m), (vz m), (vx e), (vz e). destruct CO as [CM CE]. rewrite (snap_at _ _ Ym) in CM at 2. rewrite (snap_at _ _ Ye) in CE at 2.
    split; [exact CM|]. split; [exact CE|]. split; [lra|]. split; [exact XR|reflexivity].
  - intros x y XI YI [X [D [F TX]]]. eapply foot_perm in F; [|exact PM]. unfold s_in_row in F. rewrite (snap_at _ _ Ym), (snap_at _ _ Yd), (snap_at _ _ Ye) in F.
    destruct F as [u [v [t [U [V [W [SUM EQ]]]]]]]. injection EQ as EX EY _. cbn [vx vy vz] in EX, EY.
    assert (y = y0). { apply eq_IZR. rewrite EY. replace u with (1 - v - t) by lra. ring. } subst y.
    eexists. split; [apply P; exists y0; split; [lia|]; split; [exact YI|]; exists x; split; [exact XI|]; split; [|reflexivity]|split; reflexivity].
    rewrite !Z0, <- TX. split; apply Ztrunc_le; rewrite EX; replace u with (1 - v - t) by lra.
    + assert (0 <= v * (vx d - vx m)) by (apply Rmult_le_pos; lra). assert (0 <= t * (vx e - vx m)) by (apply Rmult_le_pos; lra). lra.
    + assert (0 <= u * (vx e - vx m)) by (apply Rmult_le_pos; lra). assert (0 <= v * (vx e - vx d)) by (apply Rmult_le_pos; lra). replace u with (1 - v - t) in H by lra. lra.
Qed.
Lemma tri2d_R : forall cull w h p1 p2 p3 i, coords_ok p1 p2 p3 ->
  exists ps, drawTriangle2D cull w h p1 p2 p3 i = Ret ps /\
    (forall p, In p ps -> (cull = true -> front2d p1 p2 p3 = true) /\ touches w h p1 p2 p3 = true /\ shaded (s_snap p1) (s_snap p2) (s_snap p3) w h i p) /\
    ((cull = true -> front2d p1 p2 p3 = true) -> touches w h p1 p2 p3 = true -> forall x y, (0 <= x < w)%Z -> (0 <= y < h)%Z -> s_footprint p1 p2 p3 x y -> drawn_at ps x y).
Proof.
  intros cull w h p1 p2 p3 i CO. pose proof CO as [CA CS]. unfold drawTriangle2D.
  destruct (negb cull || front2d p1 p2 p3) eqn:FR.
  2:{ exists []. split; auto. split; [intros p []|]. intros F. destruct cull; [|discriminate]. rewrite F in FR by auto. discriminate. }
  assert (FR' : cull = true -> front2d p1 p2 p3 = true) by (intros ->; exact FR).
  destruct (CA p1 (or_introl eq_refl)) as [X1 [Y1 _]]. destruct (CA p2 (or_intror (or_introl eq_refl))) as [X2 [Y2 _]]. destruct (CA p3 (or_intror (or_intror eq_refl))) as [X3 [Y3 _]].
  rewrite !cast_R by auto. cbn [or_ub obind]. fold (touches w h p1 p2 p3). destruct (touches w h p1 p2 p3) eqn:TO.
  2:{ exists []. split; auto. split; [intros p []|]. discriminate. }
  destruct (Z.eqb_spec (Z.min (Ztrunc (vy p1)) (Z.min (Ztrunc (vy p2)) (Ztrunc (vy p3)))) (Z.max (Ztrunc (vy p1)) (Z.max (Ztrunc (vy p2)) (Ztrunc (vy p3))))) as [FL|FL].
  - destruct (sort3 vx p1 p2 p3) as [[m d] e] eqn:SO.
    pose proof (sort_perm _ _ _ _ _ _ _ SO) as PM. assert (IN : forall v, v = m \/ v = d \/ v = e -> v = p1 \/ v = p2 \/ v = p3) by (intros v V; eapply perm3_in; eauto).
    assert (AY : forall v, v = p1 \/ v = p2 \/ v = p3 -> Ztrunc (vy v) = Ztrunc (vy p1)) by (intros v [->|[->| ->]]; lia).
    destruct (CA m (IN m (or_introl eq_refl))) as [_ [Ym _]]. destruct (CA d (IN d (or_intror (or_introl eq_refl)))) as [_ [Yd _]].
    rewrite !cast_R by auto. cbn [or_ub obind]. rewrite (AY m), (AY d) by auto.
    destruct (flat_R w h p1 p2 p3 i (Ztrunc (vy p1)) CO AY m d e SO) as [ps [E [P Q]]]. exists ps. split; auto.
  - destruct (sort3 vy p1 p2 p3) as [[m d] e] eqn:SO.
    pose proof (sort_perm _ _ _ _ _ _ _ SO) as PM. assert (IN : forall v, v = m \/ v = d \/ v = e -> v = p1 \/ v = p2 \/ v = p3) by (intros v V; eapply perm3_in; eauto).
    destruct (CA m (IN m (or_introl eq_refl))) as [Xm [Ym Rm]]. destruct (CA d (IN d (or_intror (or_introl eq_refl)))) as [Xd [Yd _]]. destruct (CA e (IN e (or_intror (or_intror eq_refl)))) as [Xe [Ye _]].
    destruct (sort_span p1 p2 p3 m d e _ _ _ _ _ _ SO (cast_R _ Y1) (cast_R _ Y2) (cast_R _ Y3) (cast_R _ Ym) (cast_R _ Yd) (cast_R _ Ye)) as [ABC [MN MX]].
    assert (SP : (Ztrunc (vy e) - Ztrunc (vy m) <= 2147483647)%Z) by (apply CS; apply IN; auto).
    rewrite !cast_R by auto. cbn [or_ub obind]. set (a := Ztrunc (vy m)) in *. set (b := Ztrunc (vy d)) in *. set (c := Ztrunc (vy e)) in *.
    assert (AC : (a < c)%Z) by lia.
    unfold ichk. repeat match goal with |- context [Z.leb ?u ?v] => destruct (Z.leb_spec u v); [|lia] end. cbn [andb obind].
    set (pr := prime m e (c - b) (b - a) (c - a)).
    assert (PX : vx pr = (vx m * IZR (c - b) + vx e * IZR (b - a)) / IZR (c - a)) by reflexivity.
    assert (PZ : vz pr = (vz m * IZR (c - b) + vz e * IZR (b - a)) / IZR (c - a)) by reflexivity.
    pose proof (prime_in m d e a b c ltac:(lia) ltac:(lia) ltac:(lia)) as IP. change (in_triangle (V3 (vx m) (IZR a) (vz m)) (V3 (vx d) (IZR b) (vz d)) (V3 (vx e) (IZR c) (vz e)) (V3 (vx pr) (IZR b) (vz pr))) in IP.
    destruct (corner_in m d e a b c) as [_ [ID _]].
    assert (AB : exists pa pb, (if nltb (vx d) (vx pr) then (d, pr) else (pr, d)) = (pa, pb) /\ vx pa <= vx d <= vx pb /\ vx pa <= vx pr <= vx pb /\
       in_triangle (V3 (vx m) (IZR a) (vz m)) (V3 (vx d) (IZR b) (vz d)) (V3 (vx e) (IZR c) (vz e)) (V3 (vx pa) (IZR b) (vz pa)) /\
       in_triangle (V3 (vx m) (IZR a) (vz m)) (V3 (vx d) (IZR b) (vz d)) (V3 (vx e) (IZR c) (vz e)) (V3 (vx pb) (IZR b) (vz pb))).
    { destruct (nltb (vx d) (vx pr)) eqn:LT; unR; [apply Rltb_true in LT; exists d, pr|apply Rltb_false in LT; exists pr, d]; (split; [auto|]); (split; [lra|]); (split; [lra|]); split; auto. }
    destruct AB as [pa [pb [EQ [PD [PP [IA IB]]]]]]. rewrite EQ. rewrite PX in PP.
    destruct (part1_R w h m d e pa pb i a b c ABC AC ltac:(lia) Xm Xd Xe PD PP IA IB) as [ps1 [E1 [P1 Q1]]].
    destruct (part2_R w h m d e pa pb i a b c ABC AC ltac:(lia) Xm Xd Xe PD PP IA IB) as [ps2 [E2 [P2 Q2]]].
    unF. rewrite E1. cbn [obind]. rewrite E2. cbn [obind]. exists (ps1 ++ ps2). split; auto.
    split.
    + intros p I. split; auto. split; auto. eapply shaded_perm; [apply snap_perm; exact PM|]. rewrite (snap_at m a), (snap_at d b), (snap_at e c) by reflexivity. apply in_app_or in I as [I|I]; auto.
    + intros _ _ x y XI YI [X [D [F TX]]]. eapply foot_perm in F; [|exact PM]. unfold s_in_row in F. rewrite (snap_at m a), (snap_at d b), (snap_at e c) in F by reflexivity.
      assert (YR : (a <= y <= c)%Z).
      { destruct F as [u [v [t [U [V [W [SUM EQ']]]]]]]. injection EQ' as _ EY _. cbn [vx vy vz] in EY. destruct ABC as [AB BC]. apply IZR_le in AB. apply IZR_le in BC.
        assert (0 <= v * (IZR b - IZR a)) by (apply Rmult_le_pos; lra). assert (0 <= t * (IZR c - IZR a)) by (apply Rmult_le_pos; lra).
        assert (UU : 0 <= u * (IZR c - IZR a)) by (apply Rmult_le_pos; lra). assert (0 <= v * (IZR c - IZR b)) by (apply Rmult_le_pos; lra).
        split; apply le_IZR; rewrite EY.
        - replace u with (1 - v - t) by lra. lra.
        - replace u with (1 - v - t) in UU by lra. replace u with (1 - v - t) by lra. lra. }
      assert (DR : drawn_at ps1 x y \/ drawn_at ps2 x y).
      { destruct (Z_le_gt_dec y b) as [L|L]; [destruct (Z_lt_dec a b) as [K|K]|].
        - left. eapply Q1; eauto; lia.
        - right. eapply Q2; eauto; lia.
        - right. eapply Q2; eauto; lia. }
      destruct DR as [[p [I K]]|[p [I K]]]; exists p; split; auto; apply in_or_app; auto.
Qed.
