(** * Depth camera over the reals: the pixels of a whole mesh *)
From Coq Require Import ZArith NArith List Bool Lia Reals Lra Permutation.
From Flocq Require Import Core.Raux.
From Verif Require Import Num NumOrd MathTypes Outcome Mesh Spec P_Tac P_Math P_Mesh P_MeshGeo SpecLaser P_Laser5 Depth P_Depth P_Depth3 P_Depth4 SpecDepth P_Depth5 P_Depth6 P_Depth7.
Import ListNotations.
Local Open Scope R_scope.

Lemma trunc_near : forall x, Rabs (x - IZR (Ztrunc x)) < 1.
Proof.
  intros x. destruct (Rle_lt_dec 0 x) as [P|N].
  - rewrite Ztrunc_floor by auto. pose proof (Zfloor_lb x). pose proof (Zfloor_ub x). rewrite Rabs_pos_eq; lra.
  - rewrite Ztrunc_ceil by lra. unfold Zceil. rewrite opp_IZR. pose proof (Zfloor_lb (- x)). pose proof (Zfloor_ub (- x)). apply Rabs_def1; lra.
Qed.
Lemma avg_near : forall u v w a b c, 0 <= u -> 0 <= v -> 0 <= w -> u + v + w = 1 -> Rabs a < 1 -> Rabs b < 1 -> Rabs c < 1 -> Rabs (u * a + v * b + w * c) < 1.
Proof.
  intros u v w a b c U V W SUM A B C. apply Rabs_def2 in A. apply Rabs_def2 in B. apply Rabs_def2 in C.
  pose proof (wsum u v w (1 - a) (1 - b) (1 - c) U V W SUM ltac:(lra) ltac:(lra) ltac:(lra)) as P.
  pose proof (wsum u v w (1 + a) (1 + b) (1 + c) U V W SUM ltac:(lra) ltac:(lra) ltac:(lra)) as Q. apply Rabs_def1; lra.
Qed.
(** a shaded pixel belongs to the footprint *)
Lemma shaded_foot : forall p1 p2 p3 w h i p, shaded (s_snap p1) (s_snap p2) (s_snap p3) w h i p -> s_footprint p1 p2 p3 (px_x p) (px_y p).
Proof.
  intros p1 p2 p3 w h i p [[X0 _] [_ [Xa [Da [Xb [Db [A [B [L [T _]]]]]]]]]]. destruct (trunc_hit Xa Xb (px_x p) L ltac:(lia) T) as [X [XI TX]].
  destruct (Req_dec Xa Xb) as [E|NE].
  - exists Xa, Da. split; [exact A|]. assert (X = Xa) by lra. congruence.
  - set (s := (X - Xa) / (Xb - Xa)). assert (S01 : 0 <= s <= 1).
    { unfold s. split; [apply div_pos; lra|]. apply Rmult_le_reg_r with (Xb - Xa); [lra|]. unfold Rdiv. rewrite Rmult_assoc, Rinv_l by lra. lra. }
    exists X, (Da + s * (Db - Da)). split; auto. pose proof (in_triangle_convex _ _ _ _ _ s A B S01) as I. cbn [vx vy vz] in I. unfold s_in_row.
    replace X with (Xa + s * (Xb - Xa)) by (unfold s; field; lra). replace (IZR (px_y p)) with (IZR (px_y p) + s * (IZR (px_y p) - IZR (px_y p))) by ring. exact I.
Qed.
(** a point of the moved triangle lies next to a point of the triangle *)
Lemma snap_near : forall p1 p2 p3 y X D, s_in_row p1 p2 p3 y X D -> exists Y, in_triangle p1 p2 p3 (V3 X Y D) /\ Rabs (Y - IZR y) < 1.
Proof.
  intros p1 p2 p3 y X D [u [v [w [U [V [W [SUM E]]]]]]]. injection E as EX EY ED. cbn [s_snap vx vy vz] in *. exists (u * vy p1 + v * vy p2 + w * vy p3). split.
  - exists u, v, w. split; auto. split; auto. split; auto. split; auto. rewrite EX, ED. reflexivity.
  - rewrite EY. replace (u * vy p1 + v * vy p2 + w * vy p3 - (u * IZR (Ztrunc (vy p1)) + v * IZR (Ztrunc (vy p2)) + w * IZR (Ztrunc (vy p3)))) with
      (u * (vy p1 - IZR (Ztrunc (vy p1))) + v * (vy p2 - IZR (Ztrunc (vy p2))) + w * (vy p3 - IZR (Ztrunc (vy p3)))) by ring. apply avg_near; auto; apply trunc_near.
Qed.
Lemma snap_near2 : forall p1 p2 p3 X Y D, in_triangle p1 p2 p3 (V3 X Y D) -> exists Y', in_triangle (s_snap p1) (s_snap p2) (s_snap p3) (V3 X Y' D) /\ Rabs (Y - Y') < 1.
Proof.
  intros p1 p2 p3 X Y D [u [v [w [U [V [W [SUM E]]]]]]]. injection E as EX EY ED. exists (u * IZR (Ztrunc (vy p1)) + v * IZR (Ztrunc (vy p2)) + w * IZR (Ztrunc (vy p3))). split.
  - exists u, v, w. split; auto. split; auto. split; auto. split; auto. rewrite EX, ED. reflexivity.
  - rewrite EY. replace (u * vy p1 + v * vy p2 + w * vy p3 - (u * IZR (Ztrunc (vy p1)) + v * IZR (Ztrunc (vy p2)) + w * IZR (Ztrunc (vy p3)))) with
      (u * (vy p1 - IZR (Ztrunc (vy p1))) + v * (vy p2 - IZR (Ztrunc (vy p2))) + w * (vy p3 - IZR (Ztrunc (vy p3)))) by ring. apply avg_near; auto; apply trunc_near.
Qed.
(** a triangle drawn for the camera: the pixel comes from it *)
Definition from_tri (c : cam R) (cull : bool) (w h : Z) (t : vec3 R * vec3 R * vec3 R) (i : Z) (p : pixel R) : Prop :=
  let '(a, b, d) := t in let a' := project_vert c a in let b' := project_vert c b in let d' := project_vert c d in
  (cull = true -> front2d a' b' d' = true) /\ touches w h a' b' d' = true /\ shaded (s_snap a') (s_snap b') (s_snap d') w h i p.
Definition tri_coords (c : cam R) (t : vec3 R * vec3 R * vec3 R) : Prop := let '(a, b, d) := t in coords_ok (project_vert c a) (project_vert c b) (project_vert c d).
(** a pixel that has to come from it *)
Definition must_draw (c : cam R) (cull : bool) (w h : Z) (t : vec3 R * vec3 R * vec3 R) (x y : Z) : Prop :=
  let '(a, b, d) := t in let a' := project_vert c a in let b' := project_vert c b in let d' := project_vert c d in
  (cull = true -> front2d a' b' d' = true) /\ touches w h a' b' d' = true /\ (0 <= x < w)%Z /\ (0 <= y < h)%Z /\ s_footprint a' b' d' x y.
Lemma drawTriangle_R : forall c cull w h t i, tri_coords c t -> exists ps, drawTriangle c cull w h t i = Ret ps /\ (forall p, In p ps -> from_tri c cull w h t i p) /\ forall x y, must_draw c cull w h t x y -> drawn_at ps x y.
Proof.
  intros c cull w h [[a b] d] i C. destruct (tri2d_R cull w h _ _ _ i C) as [ps [E [P Q]]]. exists ps. split; [exact E|]. split; [exact P|]. intros x y [F [T [X [Y S]]]]. apply Q; auto.
Qed.
Lemma draw_all_R : forall c cull w h i ts, (forall t, In t ts -> tri_coords c t) -> exists ps, draw_all c cull w h ts i = Ret ps /\
  (forall p, In p ps -> exists t, In t ts /\ from_tri c cull w h t i p) /\ forall t x y, In t ts -> must_draw c cull w h t x y -> drawn_at ps x y.
Proof.
  intros c cull w h i. induction ts as [|t ts IH]; intros C; cbn [draw_all].
  - exists []. split; auto. split; [intros p []|intros t x y []].
  - destruct (drawTriangle_R c cull w h t i (C t (or_introl eq_refl))) as [ps [E [P Q]]]. destruct IH as [qs [E2 [P2 Q2]]]; [intros; apply C; right; auto|].
    rewrite E, E2. cbn [obind]. exists (ps ++ qs). split; auto. split.
    + intros p I. apply in_app_or in I as [I|I]; [exists t; split; [left; auto|auto]|]. destruct (P2 p I) as [t' [T F]]. exists t'. split; [right|]; auto.
    + intros t' x y [<-|I] M; [apply Q in M as [p [J K]]|apply Q2 in M as [p [J K]]; auto]; exists p; split; auto; apply in_or_app; auto.
Qed.
Lemma draw_all_i : forall c cull w h i ts ps, draw_all c cull w h ts i = Ret ps -> (forall t, In t ts -> tri_coords c t) -> forall p, In p ps -> px_i p = i.
Proof.
  intros c cull w h i ts ps E C p I. destruct (draw_all_R c cull w h i ts C) as [qs [E2 [P _]]]. rewrite E in E2. injection E2 as <-. destruct (P p I) as [[[a b] d] [_ F]]. apply F.
Qed.
Lemma loop_R : forall c cull w h pts ts l i acc, s_soup pts (map idx ts) = Some l -> (forall a b d t, In (a, b, d) l -> In t (clip_tri a b d) -> tri_coords c t) ->
  exists ps, render_loop (fun l p => Ret (l ++ [p])) (fun _ => false) c cull w h pts ts i acc = Ret (acc ++ ps) /\
    (forall p, In p ps -> exists k a b d t, nth_error l k = Some (a, b, d) /\ In t (clip_tri a b d) /\ from_tri c cull w h t (s32 (i + Z.of_nat k)) p) /\
    (forall k a b d t x y, nth_error l k = Some (a, b, d) -> In t (clip_tri a b d) -> must_draw c cull w h t x y -> exists p, In p ps /\ px_x p = x /\ px_y p = y /\ px_i p = s32 (i + Z.of_nat k)).
Proof.
  intros c cull w h pts. induction ts as [|t ts IH]; intros l i acc S C; cbn [render_loop].
  - cbn in S. injection S as <-. exists []. rewrite app_nil_r. split; auto. split; [intros p []|]. intros k a b d t x y N. destruct k; discriminate.
  - change (map idx (t :: ts)) with ((ti1 t, ti2 t, ti3 t) :: map idx ts) in S. cbn [s_soup] in S. rewrite !s_nth_nth_error in S. unfold point_at in *.
    destruct (nth_error pts (N.to_nat (ti1 t))) as [a|]; [|discriminate]. destruct (nth_error pts (N.to_nat (ti2 t))) as [b|]; [|discriminate].
    destruct (nth_error pts (N.to_nat (ti3 t))) as [d|]; [|discriminate]. destruct (s_soup pts (map idx ts)) as [r|] eqn:N4; [|discriminate]. injection S as <-. cbn [or_ub obind].
    assert (C1 : forall t, In t (clip_tri a b d) -> tri_coords c t) by (intros t' T; eapply C; [left; reflexivity|auto]).
    destruct (draw_all_R c cull w h (s32 i) (clip_tri a b d) C1) as [ps [E [P Q]]].
    pose proof (draw_all_i _ _ _ _ _ _ _ E C1) as PI. rewrite E. cbn [obind]. rewrite collect. cbn [obind].
    destruct (IH r (i + 1)%Z (acc ++ ps) eq_refl) as [qs [E2 [P2 Q2]]]. { intros a' b' d' t' I. apply C. right. auto. }
    rewrite E2. exists (ps ++ qs). rewrite app_assoc. split; auto. split.
    + intros p I. apply in_app_or in I as [I|I].
      * destruct (P p I) as [t' [T F]]. exists 0%nat, a, b, d, t'. rewrite Z.add_0_r. auto.
      * destruct (P2 p I) as [k [a' [b' [d' [t' [N [T F]]]]]]]. exists (S k), a', b', d', t'. split; auto. split; auto. replace (i + Z.of_nat (S k))%Z with (i + 1 + Z.of_nat k)%Z by lia. auto.
    + intros k a' b' d' t' x y N T M. destruct k as [|k].
      * cbn in N. injection N as <- <- <-. destruct (Q t' x y T M) as [p [I [X Y]]]. exists p. rewrite Z.add_0_r. split; [apply in_or_app; auto|]. split; auto.
      * cbn in N. destruct (Q2 k a' b' d' t' x y N T M) as [p [I [X [Y Z]]]]. exists p. replace (i + Z.of_nat (S k))%Z with (i + 1 + Z.of_nat k)%Z by lia. split; [apply in_or_app; auto|]. auto.
Qed.
(** ** early returns of render *)
Lemma moved_near : forall pose v r, rigid pose -> s_norm v <= r -> r < vz (MathTypes.tt pose) -> near_clip <= vz (s_moved pose v).
Proof.
  intros pose v r RG NV L. pose proof (moved_off pose v RG) as MO. pose proof (norm_z (s_diff (s_moved pose v) (MathTypes.tt pose))) as NZ. rewrite MO in NZ. unfold s_diff in NZ. cbn [vz] in NZ.
  pose proof (Rle_abs (- (vz (s_moved pose v) - vz (MathTypes.tt pose)))) as A. rewrite Rabs_Ropp in A. rewrite near_R. lra.
Qed.
(** a triangle with a pixel inside the image, off the first row and column, passes the rejection test *)
Lemma tri_max : forall (f : vec3 R -> R) u v w a b c, 0 <= u -> 0 <= v -> 0 <= w -> u + v + w = 1 -> u * f a + v * f b + w * f c <= Rmax (f a) (Rmax (f b) (f c)) /\ Rmin (f a) (Rmin (f b) (f c)) <= u * f a + v * f b + w * f c.
Proof.
  intros f u v w a b c U V W SUM. split.
  - set (q := Rmax (f a) (Rmax (f b) (f c))). assert (f a <= q) by apply Rmax_l. assert (f b <= q) by (eapply Rle_trans; [apply Rmax_l|apply Rmax_r]). assert (f c <= q) by (eapply Rle_trans; [apply Rmax_r|apply Rmax_r]).
    replace q with (u * q + v * q + w * q) by (replace u with (1 - v - w) by lra; ring). repeat apply Rplus_le_compat; apply Rmult_le_compat_l; auto.
  - set (q := Rmin (f a) (Rmin (f b) (f c))). assert (q <= f a) by apply Rmin_l. assert (q <= f b) by (eapply Rle_trans; [apply Rmin_r|apply Rmin_l]). assert (q <= f c) by (eapply Rle_trans; [apply Rmin_r|apply Rmin_r]).
    replace q with (u * q + v * q + w * q) at 1 by (replace u with (1 - v - w) by lra; ring). repeat apply Rplus_le_compat; apply Rmult_le_compat_l; auto.
Qed.
Lemma trunc_max : forall a b c x, x <= Rmax a (Rmax b c) -> (Ztrunc x <= Z.max (Ztrunc a) (Z.max (Ztrunc b) (Ztrunc c)))%Z.
Proof. intros a b c x H. apply Ztrunc_le in H. revert H. unfold Rmax. destruct (Rle_dec b c); destruct (Rle_dec a _); lia. Qed.
Lemma trunc_min : forall a b c x, Rmin a (Rmin b c) <= x -> (Z.min (Ztrunc a) (Z.min (Ztrunc b) (Ztrunc c)) <= Ztrunc x)%Z.
Proof. intros a b c x H. apply Ztrunc_le in H. revert H. unfold Rmin. destruct (Rle_dec b c); destruct (Rle_dec a _); lia. Qed.
Lemma foot_bounds : forall p1 p2 p3 x y, s_footprint p1 p2 p3 x y ->
  (Z.min (Ztrunc (vx p1)) (Z.min (Ztrunc (vx p2)) (Ztrunc (vx p3))) <= x <= Z.max (Ztrunc (vx p1)) (Z.max (Ztrunc (vx p2)) (Ztrunc (vx p3))))%Z /\
  (Z.min (Ztrunc (vy p1)) (Z.min (Ztrunc (vy p2)) (Ztrunc (vy p3))) <= y <= Z.max (Ztrunc (vy p1)) (Z.max (Ztrunc (vy p2)) (Ztrunc (vy p3))))%Z.
Proof.
  intros p1 p2 p3 x y [X [D [[u [v [w [U [V [W [SUM E]]]]]]] TX]]]. injection E as EX EY _. cbn [s_snap vx vy vz] in *.
  destruct (tri_max vx u v w p1 p2 p3 U V W SUM) as [X1 X2]. rewrite <- EX in X1, X2. apply trunc_max in X1. apply trunc_min in X2. rewrite TX in *. split; [lia|].
  destruct (tri_max (fun v => IZR (Ztrunc (vy v))) u v w p1 p2 p3 U V W SUM) as [Y1 Y2]. cbn beta in Y1, Y2. rewrite <- EY in Y1, Y2. apply trunc_max in Y1. apply trunc_min in Y2. rewrite !Ztrunc_IZR in *. lia.
Qed.
Lemma touches_in : forall w h p1 p2 p3 x y, s_footprint p1 p2 p3 x y -> (0 < x < w)%Z -> (0 < y < h)%Z -> touches w h p1 p2 p3 = true.
Proof.
  intros w h p1 p2 p3 x y F X Y. apply foot_bounds in F as [FX FY]. unfold touches. repeat rewrite andb_true_iff. repeat split; apply Z.ltb_lt; lia.
Qed.
(** all visible points of a moved triangle have image coordinates in range *)
Definition s_in_range (fx fy cx cy tx ty : R) (a b d : vec3 R) : Prop :=
  forall q X Y, in_triangle a b d q -> vz q <= -1/10 -> s_sees fx fy cx cy tx ty q X Y -> Rabs X < 2147483648 /\ Rabs Y < 1073741824.
Lemma abs_cast : forall x k, Rabs x < IZR k -> (Z.abs (Ztrunc x) < k)%Z.
Proof.
  intros x k H. apply lt_IZR. eapply Rle_lt_trans; [|exact H]. rewrite abs_IZR. destruct (Rle_lt_dec 0 x) as [P|N].
  - rewrite Ztrunc_floor by auto. rewrite !Rabs_pos_eq; [apply Zfloor_lb|auto|]. apply IZR_le. apply Zfloor_lub. auto.
  - rewrite Ztrunc_ceil by lra. unfold Zceil. rewrite opp_IZR, Rabs_Ropp. rewrite (Rabs_left x) by auto. rewrite Rabs_pos_eq; [apply Zfloor_lb|]. apply IZR_le. apply Zfloor_lub. lra.
Qed.
Lemma range_coords : forall c a b d t, s_in_range (c_fx c) (c_fy c) (c_cx c) (c_cy c) (c_tx c) (c_ty c) a b d -> In t (clip_tri a b d) -> tri_coords c t.
Proof.
  intros c a b d [[p q] r] B I. destruct (tri_corners p q r) as [P [Q R0]].
  assert (K : forall v, v = p \/ v = q \/ v = r -> Rabs (vx (project_vert c v)) < 2147483648 /\ Rabs (vy (project_vert c v)) < 1073741824).
  { intros v V. assert (IV : in_triangle p q r v) by (destruct V as [->|[->| ->]]; auto). destruct (clip_in _ _ _ _ _ _ v I IV) as [IN NV]. apply (B v); auto. split; reflexivity. }
  assert (G : forall v, v = project_vert c p \/ v = project_vert c q \/ v = project_vert c r -> (Z.abs (Ztrunc (vx v)) < 2147483648 /\ Z.abs (Ztrunc (vy v)) < 1073741824)%Z).
  { intros v V. assert (H : Rabs (vx v) < 2147483648 /\ Rabs (vy v) < 1073741824) by (destruct V as [->|[->| ->]]; apply K; auto). destruct H as [H1 H2]. apply abs_cast in H1. apply abs_cast in H2. auto. }
  split.
  - intros v V. apply G in V as [V1 V2]. unfold castable. lia.
  - intros u v U V. apply G in U as [_ U2]. apply G in V as [_ V2]. lia.
Qed.
(** the depth of a pixel is the exact one at a column coordinate less than one pixel to the right, if the row reaches that far *)
Lemma shaded_line : forall p1 p2 p3 w h i p, shaded (s_snap p1) (s_snap p2) (s_snap p3) w h i p -> exists Xa Xb X D,
  Xa <= Xb /\ (Ztrunc Xa <= px_x p <= Ztrunc Xb)%Z /\ (exists D, s_in_row p1 p2 p3 (px_y p) Xa D) /\ (exists D, s_in_row p1 p2 p3 (px_y p) Xb D) /\
  IZR (px_x p) <= X < IZR (px_x p) + 1 /\ Xa <= X /\ px_d p = 1 / D /\ (X <= Xb -> s_in_row p1 p2 p3 (px_y p) X D).
Proof.
  intros p1 p2 p3 w h i p [[X0 _] [_ [Xa [Da [Xb [Db [A [B [L [T E]]]]]]]]]]. set (X := Xa + (IZR (px_x p) - anchor Xa)).
  exists Xa, Xb, X, (Da + (IZR (px_x p) - anchor Xa) * ((Db - Da) / (Xb - Xa))). split; auto. split; auto. split; [exists Da; exact A|]. split; [exists Db; exact B|].
  assert (K : IZR (px_x p) <= X < IZR (px_x p) + 1 /\ Xa <= X).
  { unfold X, anchor. assert (X0' : 0 <= IZR (px_x p)) by (apply IZR_le; lia). destruct (Rlt_dec Xa 0) as [N|N]; [lra|]. destruct T as [T1 _].
    rewrite Ztrunc_floor in * by lra. pose proof (Zfloor_lb Xa). pose proof (Zfloor_ub Xa). apply IZR_le in T1. lra. }
  destruct K as [K1 K2]. split; auto. split; auto. split; auto. intros LE. unfold s_in_row. destruct (Req_dec Xa Xb) as [Q|NE].
  - assert (X = Xa) by lra. replace (IZR (px_x p) - anchor Xa) with 0 by (unfold X in H; lra). rewrite Rmult_0_l, Rplus_0_r, H. exact A.
  - set (s := (X - Xa) / (Xb - Xa)). assert (S01 : 0 <= s <= 1).
    { unfold s. split; [apply div_pos; lra|]. apply Rmult_le_reg_r with (Xb - Xa); [lra|]. unfold Rdiv. rewrite Rmult_assoc, Rinv_l by lra. lra. }
    pose proof (in_triangle_convex _ _ _ _ _ s A B S01) as I. cbn [vx vy vz] in I.
    replace X with (Xa + s * (Xb - Xa)) by (unfold s; field; lra). replace (IZR (px_y p)) with (IZR (px_y p) + s * (IZR (px_y p) - IZR (px_y p))) by ring.
    replace (Da + (IZR (px_x p) - anchor Xa) * ((Db - Da) / (Xb - Xa))) with (Da + s * (Db - Da)); [exact I|]. unfold s, X. field. lra.
Qed.
