(** * Lemmas about the viewers *)
From Coq Require Import ZArith NArith List Bool Lia Reals Lra Psatz.
From Flocq Require Import Core.Raux.
From Verif Require Import Num NumOrd MathTypes Outcome Mesh Spec P_Tac P_Math P_Trig P_Mesh P_MeshGeo SpecLaser P_Laser2 P_Laser4 P_Laser5 Depth P_Depth P_Depth2 P_Depth3 P_Depth4 SpecDepth P_Depth5 P_Depth6 P_Depth7 P_Depth8 Props_Math Props_Mesh Props_Depth Viewer SpecViewer.
Import ListNotations.
Local Open Scope R_scope.

(** ** nothing is drawn for triangles turned away *)
Lemma draw_none : forall (c : cam R) w h i ts, 0 < c_fx c -> 0 < c_fy c ->
  (forall a b d, In (a, b, d) ts -> vz a < 0 /\ vz b < 0 /\ vz d < 0 /\ ~ s_facing (c_fx c) (c_fy c) (c_tx c) (c_ty c) a b d) -> draw_all c true w h ts i = Ret [].
Proof.
  intros c w h i. induction ts as [|[[a b] d] ts IH]; intros FX FY H; [reflexivity|]. cbn [draw_all]. destruct (H a b d (or_introl eq_refl)) as [A [B [D N]]].
  unfold drawTriangle, drawTriangle2D. destruct (front2d _ _ _) eqn:F; [exfalso; apply N; apply front_facing in F; auto|]. cbn [negb orb obind].
  rewrite IH; auto. intros a' b' d' I. apply H. right. auto.
Qed.
Lemma loop_none : forall S (rp : S -> pixel R -> outcome S) stop (c : cam R) w h pts ts l i s, 0 < c_fx c -> 0 < c_fy c -> s_soup pts (map idx ts) = Some l -> (forall s, stop s = false) ->
  (forall a b d, In (a, b, d) l -> ~ s_facing (c_fx c) (c_fy c) (c_tx c) (c_ty c) a b d) -> render_loop rp stop c true w h pts ts i s = Ret s.
Proof.
  intros S rp stop c w h pts. induction ts as [|t ts IH]; intros l i s FX FY SP ST NF; cbn [render_loop]; [reflexivity|].
  change (map idx (t :: ts)) with ((ti1 t, ti2 t, ti3 t) :: map idx ts) in SP. cbn [s_soup] in SP. rewrite !s_nth_nth_error in SP. unfold point_at in *.
  destruct (nth_error pts (N.to_nat (ti1 t))) as [a|]; [|discriminate]. destruct (nth_error pts (N.to_nat (ti2 t))) as [b|]; [|discriminate].
  destruct (nth_error pts (N.to_nat (ti3 t))) as [d|]; [|discriminate]. destruct (s_soup pts (map idx ts)) as [r|] eqn:N4; [|discriminate]. injection SP as <-. cbn [or_ub obind].
  rewrite draw_none; auto.
  - cbn [obind draw_pixels]. rewrite ST. apply (IH r); auto. intros a' b' d' I. apply NF. right. auto.
  - intros a' b' d' I. destruct (clip_view _ _ _ _ _ _ I) as [V1 [V2 V3]]. rewrite near_R in *. split; [lra|]. split; [lra|]. split; [lra|].
    intros F. apply (NF a b d (or_introl eq_refl)). eapply clip_facing; eauto.
Qed.
Lemma render_none : forall (c : cam R) (m : mesh R) l pose w h, 0 < c_fx c -> 0 < c_fy c -> soup_of m = Some l ->
  (forall a b d, In (a, b, d) l -> ~ s_facing (c_fx c) (c_fy c) (c_tx c) (c_ty c) (s_moved pose a) (s_moved pose b) (s_moved pose d)) -> forall S (rp : S -> pixel R -> outcome S) s, cam_render rp (fun _ => false) c m pose true w h s = Ret s.
Proof.
  intros c m l pose w h FX FY SP NF S rp s. unfold cam_render. destruct (nltb _ _); [reflexivity|]. destruct (existsb _ _); [|reflexivity].
  apply (loop_none S rp _ c w h _ _ (map (fun '(a, b, d) => (s_moved pose a, s_moved pose b, s_moved pose d)) l)); auto.
  - rewrite soup_map. unfold soup_of in SP. rewrite SP. cbn [option_map]. f_equal; try (apply map_ext; intros [[a b] d]; rewrite !moved_apply; reflexivity).
  - intros a b d I. apply in_map_iff in I as [[[a0 b0] d0] [E I]]. injection E as <- <- <-. auto.
Qed.
Lemma render_near : forall (c : cam R) (m : mesh R) pose w h cull, (forall p, In p (m_points m) -> -1/10 <= vz (s_moved pose p)) ->
  forall S (rp : S -> pixel R -> outcome S) s, cam_render rp (fun _ => false) c m pose cull w h s = Ret s.
Proof.
  intros c m pose w h cull H S rp s. unfold cam_render. destruct (nltb _ _); [reflexivity|].
  destruct (existsb _ _) eqn:E; [|reflexivity]. exfalso. apply existsb_exists in E as [q [I L]]. apply in_map_iff in I as [p [<- I]]. rewrite <- moved_apply in L. apply H in I.
  cbn [nltb NumR] in L. apply Rltb_true in L. rewrite near_R in L. lra.
Qed.

(** ** images *)
Lemma black_rect : forall (w h : Z) row, In row (@black R NumR w h) -> row = repeat 0 (Z.to_nat w).
Proof. intros w h row I. unfold black in I. apply repeat_spec in I. auto. Qed.
Lemma blank_map : forall w h (f : R -> R), (0 <= w)%Z -> (0 <= h)%Z -> f 0 = 0 -> s_blank w h (map (map f) (@black R NumR w h)).
Proof.
  intros w h f W H F. split.
  - rewrite map_length. unfold black. rewrite repeat_length. lia.
  - intros row I. apply in_map_iff in I as [r0 [<- I]]. apply black_rect in I as ->. split; [rewrite map_length, repeat_length; lia|].
    intros v V. apply in_map_iff in V as [v0 [<- V]]. apply repeat_spec in V as ->. auto.
Qed.

Lemma upd_len : forall A (l : list A) i a, length (upd l i a) = length l.
Proof. intros A. induction l as [|b l IH]; intros [|i] a; cbn [upd length]; auto. Qed.
Lemma pixels_len : forall T (NT : Num T) ps (s s' : drr T), draw_pixels renderPixel s ps = Ret s' -> length (d_img s') = length (d_img s).
Proof.
  intros T NT. induction ps as [|p ps IH]; intros s s' H; cbn [draw_pixels] in H; [injection H as <-; auto|]. destruct (renderPixel s p) as [s1| | |] eqn:E; try discriminate. cbn [obind] in H.
  rewrite (IH _ _ H). clear IH H. unfold renderPixel in E. destruct (get2 _ _ _) as [old| | |]; try discriminate. cbn [obind] in E. destruct (_ || _)%bool; [|injection E as <-; auto].
  unfold set2 at 1 in E. destruct (get2 _ _ _); try discriminate. cbn [obind] in E. destruct (match d_ptr s with Some _ => _ | None => _ end) as [pm| | |]; try discriminate. cbn [obind] in E.
  destruct (match d_tmap s with [] => _ | _ => _ end) as [tm| | |]; try discriminate. cbn [obind] in E. injection E as <-. cbn [d_img]. apply upd_len.
Qed.

(** ** geometry *)
Lemma facing_moved : forall pose a b d q fx fy, rigid pose -> s_moved pose q = V3 0 0 0 ->
  (s_facing fx fy 0 0 (s_moved pose a) (s_moved pose b) (s_moved pose d) <-> s_dot (SpecDepth.s_normal a b d) (s_diff q a) > 0).
Proof.
  intros pose a b d q fx fy RG Q. unfold s_facing. cbv zeta.
  replace (V3 (- 0 / fx) (0 / fy) 0) with (s_moved pose q) by (rewrite Q; apply V3_eq; unfold Rdiv; ring).
  assert (E : s_dot (SpecDepth.s_normal (s_moved pose a) (s_moved pose b) (s_moved pose d)) (s_diff (s_moved pose q) (s_moved pose a)) = s_det (col1 (tR pose)) (col2 (tR pose)) (col3 (tR pose)) * s_dot (SpecDepth.s_normal a b d) (s_diff q a)).
  { destruct pose as [[x1 x2 x3 y1 y2 y3 z1 z2 z3] [o1 o2 o3]], a as [a1 a2 a3], b as [b1 b2 b3], d as [d1 d2 d3], q as [q1 q2 q3]. unfold s_moved, SpecDepth.s_normal, s_diff, s_dot, s_det, col1, col2, col3. cbn [tR MathTypes.tt MathTypes.mxx mxy mxz myx myy myz mzx mzy mzz vx vy vz]. ring. }
  rewrite E, (rot_det _ RG). lra.
Qed.
Lemma centre : forall pose : trans3 R, rigid pose -> exists q, s_moved pose q = V3 0 0 0 /\ s_norm q = s_norm (MathTypes.tt pose).
Proof.
  intros pose RG. exists (tapply (tinverse pose) (V3 0 0 0)).
  assert (E : s_moved pose (tapply (tinverse pose) (V3 0 0 0)) = V3 0 0 0) by (rewrite moved_apply; apply tapply_inverse; auto). split; auto.
  pose proof (moved_off pose (tapply (tinverse pose) (V3 0 0 0)) RG) as M. rewrite E in M. rewrite <- M. unfold s_norm. f_equal. unfold s_diff. cbn [vx vy vz]. unfold s_dot. cbn [vx vy vz]. ring.
Qed.
Lemma cos157 : -9 / 10000 <= cos (157 / 100) <= 9 / 10000.
Proof.
  assert (F0 : INR (fact (2 * 0)) = 1) by (rewrite INR_IZR_INZ; vm_compute Z.of_nat; reflexivity).
  assert (F2 : INR (fact (2 * 1)) = 2) by (rewrite INR_IZR_INZ; vm_compute Z.of_nat; reflexivity).
  assert (F4 : INR (fact (2 * 2)) = 24) by (rewrite INR_IZR_INZ; vm_compute Z.of_nat; reflexivity).
  assert (F6 : INR (fact (2 * 3)) = 720) by (rewrite INR_IZR_INZ; vm_compute Z.of_nat; reflexivity).
  assert (F8 : INR (fact (2 * 4)) = 40320) by (rewrite INR_IZR_INZ; vm_compute Z.of_nat; reflexivity).
  pose proof (pre_cos_bound (157/100) 1 ltac:(lra) ltac:(lra)) as [A B]. unfold cos_approx in A, B. change (2 * 1 + 1)%nat with 3%nat in A. change (2 * (1 + 1))%nat with 4%nat in B.
  cbn [sum_f_R0] in A, B. unfold cos_term in A, B. rewrite F0, F2, F4, F6 in A. rewrite F0, F2, F4, F6, F8 in B. cbn [pow Nat.mul Nat.add] in A, B. split; lra.
Qed.
(** the object of show is in view *)
Lemma show_decomp : forall r angle p, exists k, s_norm k = s_norm p /\ s_show_pos r angle p = V3 (vx k + 3 * r * cos (157/100)) (vy k + 3 * r * (cos (157/100) * sin (157/100))) (vz k - 3 * r * (1 - cos (157/100) * cos (157/100))).
Proof.
  intros r angle p. exists (rot_x (- (157 / 100)) (rot_z (157 / 100) (rot_z angle p))). pose proof (cs2 (157/100)) as C.
  assert (NX : forall a v, s_norm (rot_x a v) = s_norm v). { intros a v. pose proof (cs2 a) as Ca. unfold s_norm, s_dot, rot_x. cbn [vx vy vz]. f_equal. nra. }
  assert (NZ : forall a v, s_norm (rot_z a v) = s_norm v). { intros a v. pose proof (cs2 a) as Ca. unfold s_norm, s_dot, rot_z. cbn [vx vy vz]. f_equal. nra. }
  split; [rewrite NX, !NZ; reflexivity|]. unfold s_show_pos. set (u := rot_z angle p). unfold rot_x, rot_z. cbn [vx vy vz]. rewrite cos_neg, sin_neg. apply V3_eq; try ring. rewrite C. ring.
Qed.
Lemma show_bounds : forall r angle p, 0 <= r -> s_norm p <= r -> let q := s_show_pos r angle p in
  - (4 * r) <= vz q <= - (199 / 100 * r) /\ Rabs (vx q) <= 37 / 100 * (- vz q) /\ Rabs (vy q) <= 37 / 100 * (- vz q).
Proof.
  intros r angle p R0 NP q. destruct (show_decomp r angle p) as [k [NK E]]. unfold q. rewrite E. cbn [vx vy vz]. clear E q. set (c := cos (157/100)). assert (C : -9/10000 <= c <= 9/10000) by apply cos157.
  assert (S : -1 <= sin (157/100) <= 1) by apply SIN_bound. set (s := sin (157/100)) in *.
  assert (K : vx k * vx k + vy k * vy k + vz k * vz k <= r * r).
  { assert (Q : s_norm k <= r) by lra. unfold s_norm in Q. pose proof (sqrt_pos (s_dot k k)). assert (P : 0 <= s_dot k k) by (unfold s_dot; nra).
    pose proof (sqrt_def _ P). unfold s_dot in *. nra. }
  assert (CC : 0 <= c * c <= 81/100000000) by nra.
  assert (Z : - r <= vz k <= r) by nra. assert (RC : 0 <= r * (c * c) <= 81/100000000 * r) by nra.
  assert (T : forall u, u * u + vz k * vz k <= r * r -> Rabs u <= 36/100 * (3 * r - vz k)).
  { intros u U. apply Rsqr_incr_0_var; [|nra]. rewrite <- Rsqr_abs. unfold Rsqr. pose proof (Rle_0_sqr (vz k - 3442/10000 * r)) as Q1. pose proof (Rle_0_sqr r) as Q2. unfold Rsqr in Q1, Q2. nra. }
  pose proof (T (vx k) ltac:(nra)) as TX. pose proof (T (vy k) ltac:(nra)) as TY.
  assert (SC : Rabs (c * s) <= 9/10000). { rewrite Rabs_mult. assert (Rabs c <= 9/10000) by (apply Rabs_le; lra). assert (Rabs s <= 1) by (apply Rabs_le; lra). pose proof (Rabs_pos c). pose proof (Rabs_pos s). nra. }
  split; [split; nra|]. split.
  - eapply Rle_trans; [apply Rabs_triang|]. assert (Rabs (3 * r * c) <= 27/10000 * r) by (apply Rabs_le; nra). nra.
  - eapply Rle_trans; [apply Rabs_triang|]. assert (Rabs (3 * r * (c * s)) <= 27/10000 * r). { rewrite Rabs_mult, (Rabs_pos_eq (3 * r)) by lra. nra. } nra.
Qed.
