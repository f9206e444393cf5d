(** Lemmas about the laser range finder: rendering meshes *)
From Coq Require Import ZArith NArith List Bool Lia Reals Lra.
From Flocq Require Import Core.Raux.
From Verif Require Import Num NumOrd MathTypes Outcome Mesh Spec P_Tac P_Math P_Trig P_Mesh P_MeshGeo P_BoxMesh Laser SpecLaser P_Laser P_Laser2 P_Laser3 P_Laser4.
Import ListNotations.
Local Open Scope R_scope.

Lemma open_not_end : forall a b c q1 q2 x, s_slice a b c q1 q2 -> in_open_triangle a b c x -> vz x = 0 -> s_dot (s_normal a b c) x <> 0 -> V2 (vx x) (vy x) <> q1.
Proof.
  intros a b c q1 q2 x [A [k [K [KX KY]]]] [u [v [w [U [V [W [SUM X]]]]]]] Z NN E.
  set (p := vz b - vz a). set (q := vz c - vz a). set (M := 1 + Rabs p + Rabs q + Rabs (p - q)).
  assert (MP : 1 <= M). { unfold M. pose proof (Rabs_pos p). pose proof (Rabs_pos q). pose proof (Rabs_pos (p - q)). lra. }
  set (e := Rmin u (Rmin v w) / M).
  assert (MM : 0 < Rmin u (Rmin v w)) by (repeat apply Rmin_glb_lt; auto).
  assert (EP : 0 < e) by (apply Rmult_lt_0_compat; [auto|apply Rinv_0_lt_compat; lra]).
  assert (EM : e * M = Rmin u (Rmin v w)) by (unfold e; field; lra).
  assert (B : forall y, Rabs y <= M -> - Rmin u (Rmin v w) <= e * y).
  { intros y Y. apply Rabs_le_inv in Y. rewrite <- EM. replace (- (e * M)) with (e * - M) by ring. apply Rmult_le_compat_l; lra. }
  assert (M1 : Rmin u (Rmin v w) <= u /\ Rmin u (Rmin v w) <= v /\ Rmin u (Rmin v w) <= w).
  { pose proof (Rmin_l u (Rmin v w)). pose proof (Rmin_r u (Rmin v w)). pose proof (Rmin_l v w). pose proof (Rmin_r v w). lra. }
  pose proof (Rabs_pos p) as P1. pose proof (Rabs_pos q) as P2. pose proof (Rabs_pos (p - q)) as P3.
  assert (B1 : - Rmin u (Rmin v w) <= e * (p - q)) by (apply B; unfold M; lra).
  assert (B2 : - Rmin u (Rmin v w) <= e * q) by (apply B; unfold M; lra).
  assert (B3 : - Rmin u (Rmin v w) <= e * - p) by (apply B; rewrite Rabs_Ropp; unfold M; lra).
  set (ny := vy (s_normal a b c)) in *. set (nx := vx (s_normal a b c)) in *.
  destruct (proj1 (A (V2 (vx x - e * ny) (vy x + e * nx)))) as [t [Ht ET]].
  { exists (V3 (vx x - e * ny) (vy x + e * nx) 0). split; [|auto]. exists (u + e * (p - q)), (v + e * q), (w + e * - p). repeat split; try lra.
    rewrite X. cbn [vx vy vz]. unfold ny, nx, s_normal, s_diff. cbn [vx vy vz]. fold p q. rewrite X in Z. cbn [vz] in Z.
    apply V3_eq.
    - unfold p, q. ring.
    - unfold p, q. ring.
    - rewrite <- Z. unfold p, q. ring. }
  unfold s_along in ET. injection ET as E1 E2. rewrite <- E in KX, KY, E1, E2. cbn [v2x v2y] in *. rewrite KX in E1. rewrite KY in E2.
  assert (TK : 0 <= t * k) by (apply Rmult_le_pos; lra).
  assert (ny = 0). { apply Rmult_eq_reg_l with (t * k + e); [|lra]. lra. }
  assert (nx = 0). { apply Rmult_eq_reg_l with (t * k + e); [|lra]. lra. }
  apply NN. unfold s_dot. fold nx ny. rewrite H, H0, Z. ring.
Qed.
Lemma open_straddles : forall a b c x, in_open_triangle a b c x -> vz x = 0 -> s_dot (s_normal a b c) x <> 0 -> s_straddles a b c.
Proof.
  intros a b c x [u [v [w [U [V [W [SUM X]]]]]]] Z NN. rewrite X in Z. cbn [vz] in Z. unfold s_straddles.
  destruct (Rlt_or_le (vz a) 0) as [A|A]; [split; [tauto|]|].
  { destruct (Rlt_or_le (vz b) 0); [|tauto]. destruct (Rlt_or_le (vz c) 0); [|tauto]. exfalso.
    assert (0 < u * - vz a) by (apply Rmult_lt_0_compat; lra). assert (0 < v * - vz b) by (apply Rmult_lt_0_compat; lra). assert (0 < w * - vz c) by (apply Rmult_lt_0_compat; lra). lra. }
  destruct (Rlt_or_le (vz b) 0) as [B|B]; [tauto|]. destruct (Rlt_or_le (vz c) 0) as [C|C]; [tauto|]. exfalso.
  assert (0 <= u * vz a) by (apply Rmult_le_pos; lra). assert (0 <= v * vz b) by (apply Rmult_le_pos; lra). assert (0 <= w * vz c) by (apply Rmult_le_pos; lra).
  assert (vz a = 0) by (apply Rmult_eq_reg_l with u; lra). assert (vz b = 0) by (apply Rmult_eq_reg_l with v; lra). assert (vz c = 0) by (apply Rmult_eq_reg_l with w; lra).
  apply NN. rewrite X. unfold s_dot, s_normal, s_diff. cbn [vx vy vz]. rewrite H2, H3, H4. ring.
Qed.

(** segments drawn correctly *)
Definition seg_ok (l : lrf R) (p q : vec2 R) : Prop :=
  p = V2 0 0 \/ q = V2 0 0 \/ p = q \/
  exists a b, s_angle p a /\ s_angle q b /\ dir_ok l a /\ dir_ok l b /\ 3 * l_incr l <= Rabs (Rabs (b - a) - PI).
Lemma line_far : forall l p q res, 0 < l_rmax l -> (forall t, 0 <= t <= 1 -> l_rmax l * l_rmax l < s_len2 (s_along p q t)) -> renderLine l p q res = Ret res.
Proof.
  intros l p q res RP FAR. unfold renderLine. unR.
  destruct (_ || _ || _)%bool eqn:NZ; [reflexivity|]. apply orb_false_iff in NZ as [_ NZ]. apply Reqb_false in NZ.
  destruct (dist2_spec p q NZ) as [[t [Ht E]] _]. 
  assert (C : (Rltb 0 (l_rmax l) && Rltb (l_rmax l * l_rmax l) (line_dist2 p q (v2sub q p) (v2length2 (v2sub q p))))%bool = true).
  { apply andb_true_iff. split; apply Rltb_true; auto. rewrite E. auto. }
  rewrite C. reflexivity.
Qed.
Lemma within_dec : forall rmax p q, s_within rmax p q \/ (0 < rmax /\ forall t, 0 <= t <= 1 -> rmax * rmax < s_len2 (s_along p q t)).
Proof.
  intros rmax p q. destruct (Rle_or_lt rmax 0) as [A|A]; [left; left; auto|].
  destruct (Req_dec (s_len2 (v2sub q p)) 0) as [Z|Z].
  - apply turn_len in Z. subst q. destruct (Rle_or_lt (s_len2 p) (rmax * rmax)) as [B|B].
    + left. right. exists 0. split; [lra|]. replace (s_along p p 0) with p; auto. unfold s_along. destruct p as [x y]. cbn. f_equal; ring.
    + right. split; auto. intros t _. replace (s_along p p t) with p; auto. unfold s_along. destruct p as [x y]. cbn. f_equal; ring.
  - destruct (dist2_spec p q Z) as [[t [Ht E]] M]. destruct (Rle_or_lt (line_dist2 p q (v2sub q p) (v2length2 (v2sub q p))) (rmax * rmax)) as [B|B].
    + left. right. exists t. split; auto. rewrite <- E. auto.
    + right. split; auto. intros s Hs. specialize (M s Hs). lra.
Qed.
Lemma draw_any : forall l p q res, config_ok l -> seg_ok l p q -> (N.to_nat (l_num l) <= length (rr_ranges res))%nat ->
  exists res', renderLine l p q res = Ret res' /\ (s_within (l_rmax l) p q -> s_drawnL l p q (rr_ranges res) (rr_ranges res')) /\
    (~ s_within (l_rmax l) p q -> rr_ranges res' = rr_ranges res).
Proof.
  intros l p q res CF SO LN.
  assert (NULL : p = V2 0 0 \/ q = V2 0 0 \/ p = q -> renderLine l p q res = Ret res).
  { intros H. unfold renderLine. unR. assert (C : ((Reqb (v2x p) 0 && Reqb (v2y p) 0) || (Reqb (v2x q) 0 && Reqb (v2y q) 0) || Reqb (v2length2 (v2sub q p)) 0)%bool = true); [|rewrite C; reflexivity].
    assert (R0 : Reqb 0 0 = true) by (apply Reqb_true; reflexivity).
    destruct H as [-> | [-> | ->]]; cbn [v2x v2y]; rewrite ?R0; cbn [andb orb]; rewrite ?orb_true_r; cbn [orb]; auto.
    apply orb_true_iff. right. apply Reqb_true. unfold v2length2, v2dot, v2sub. cbn [v2x v2y]. unR. ring. }
  destruct SO as [H|[H|[H|[a [b [H1 [H2 [H3 [H4 H5]]]]]]]]].
  - exists res. split; [auto|]. split; auto. intros _. apply drawn_none. intros. apply lit_null. auto.
  - exists res. split; [auto|]. split; auto. intros _. apply drawn_none. intros. apply lit_null. auto.
  - exists res. split; [auto|]. split; auto. intros _. apply drawn_none. intros. apply lit_null. auto.
  - destruct (within_dec (l_rmax l) p q) as [W|[RP FAR]].
    + destruct (draw_R l p q a b res CF H1 H2 H3 H4 H5 LN W) as [res' [E D]]. exists res'. repeat split; auto; try apply D; try tauto.
    + exists res. split; [apply line_far; auto|]. split; auto. intros [W|[t [Ht W]]]; [lra|]. specialize (FAR t Ht). lra.
Qed.
(** all triangles *)
Definition tri3 := (vec3 R * vec3 R * vec3 R)%type.
Definition mtri (pose : trans3 R) (t : tri3) : tri3 := let '(a, b, c) := t in (s_moved pose a, s_moved pose b, s_moved pose c).
Definition tri_ok (l : lrf R) (t : tri3) : Prop := let '(a, b, c) := t in s_straddles a b c -> forall q1 q2, s_slice a b c q1 q2 -> seg_ok l q1 q2.
Definition tri_lit (l : lrf R) (t : tri3) (i : nat) (d : R) : Prop := let '(a, b, c) := t in
  (i < N.to_nat (l_num l))%nat /\ s_straddles a b c /\ exists q1 q2, s_slice a b c q1 q2 /\ s_within (l_rmax l) q1 q2 /\ s_lit (s_beam (l_amin l) (l_amax l) (l_num l) i) q1 q2 d.
Definition scanned (l : lrf R) (ts : list tri3) (ranges ranges' : list R) : Prop :=
  length ranges' = length ranges /\ forall i r, nth_error ranges i = Some r -> exists r', nth_error ranges' i = Some r' /\
    (r' = r \/ exists t, In t ts /\ tri_lit l t i r') /\ (forall t d, In t ts -> tri_lit l t i d -> r' <> 0 /\ r' <= d) /\ (r <> 0 -> r' <> 0 /\ r' <= r).
Lemma nearer_spec : forall r d, 0 < d -> (s_nearer r d = r \/ s_nearer r d = d) /\ s_nearer r d <> 0 /\ s_nearer r d <= d /\ (r <> 0 -> s_nearer r d <= r).
Proof. intros r d D. unfold s_nearer. destruct (Req_EM_T r 0); [repeat split; try lra; tauto|]. unfold Rmin. destruct (Rle_dec r d); repeat split; auto; lra. Qed.
Lemma lit_fun : forall a p q d d', s_lit a p q d -> s_lit a p q d' -> d = d'.
Proof. intros a p q d d' H G. apply lit_iff in H, G. destruct H as [_ [_ [_ ->]]]. destruct G as [_ [_ [_ ->]]]. reflexivity. Qed.
Lemma scan_tris : forall l pts pose ts tris res, config_ok l -> s_soup pts (map idx ts) = Some tris -> (forall t, In t tris -> tri_ok l (mtri pose t)) ->
  (N.to_nat (l_num l) <= length (rr_ranges res))%nat ->
  exists res', render_tris l pts pose ts res = Ret res' /\ scanned l (map (mtri pose) tris) (rr_ranges res) (rr_ranges res').
Proof.
  intros l pts pose ts. induction ts as [|[i1 i2 i3] ts IH]; intros tris res CF SP TO LN.
  - cbn in SP. injection SP as <-. exists res. split; [reflexivity|]. split; auto. intros i r E. exists r. split; auto. split; auto. split; [intros t d []|auto with real].
  - cbn [map s_soup idx] in SP. rewrite !s_nth_nth_error in SP. cbn [ti1 ti2 ti3] in SP.
    destruct (nth_error pts (N.to_nat i1)) as [a|] eqn:A; [|discriminate]. destruct (nth_error pts (N.to_nat i2)) as [b|] eqn:B; [|discriminate].
    destruct (nth_error pts (N.to_nat i3)) as [c|] eqn:C; [|discriminate]. destruct (s_soup pts (map idx ts)) as [rest|] eqn:SR; [|discriminate]. injection SP as <-.
    cbn [render_tris ti1 ti2 ti3]. unfold point_at. rewrite A, B, C. cbn [or_ub obind]. rewrite !moved_z, !moved_xy.
    set (a' := s_moved pose a). set (b' := s_moved pose b). set (c' := s_moved pose c).
    assert (TOT : tri_ok l (a', b', c')) by (apply (TO (a, b, c)); left; auto).
    assert (STEP : exists res', match slice (vz a') (vz b') (vz c') (xy a') (xy b') (xy c') with Some (q1, q2) => renderLine l q1 q2 res | None => Ret res end = Ret res' /\
      scanned l [(a', b', c')] (rr_ranges res) (rr_ranges res')).
    { assert (ST : s_straddles a' b' c' \/ ~ s_straddles a' b' c').
      { unfold s_straddles. destruct (Rlt_or_le (vz a') 0), (Rlt_or_le (vz b') 0), (Rlt_or_le (vz c') 0); try (left; tauto); right; lra. }
      destruct ST as [ST|ST].
      - destruct (slice_some a' b' c' ST) as [q1 [q2 [E S]]]. rewrite E. cbn [tri_ok] in TOT. destruct (draw_any l q1 q2 res CF (TOT ST q1 q2 S) LN) as [res' [E' [D1 D2]]].
        exists res'. split; auto. destruct (within_dec (l_rmax l) q1 q2) as [W|W].
        + destruct (D1 W) as [LL D]. split; auto. intros i r N. destruct (D i r N) as [[I [d [L K]]]|[NL K]].
          * exists (s_nearer r d). split; auto. assert (DP : 0 < d) by (destruct L as [_ [L _]]; auto). destruct (nearer_spec r d DP) as [N1 [N2 [N3 N4]]].
            split; [|split; [|auto]].
            -- destruct N1 as [N1|N1]; [left; auto|right]. exists (a', b', c'). split; [left; auto|]. rewrite N1. cbn [tri_lit]. split; auto. split; auto. exists q1, q2. auto.
            -- intros t e [<-|[]] [_ [_ [p1 [p2 [S' [_ L']]]]]]. destruct (slice_unique _ _ _ _ _ _ _ S S') as [<- <-]. rewrite (lit_fun _ _ _ _ _ L' L). auto.
          * exists r. split; auto. split; auto. split; [|auto with real].
            intros t e [<-|[]] [I [_ [p1 [p2 [S' [_ L']]]]]]. destruct (slice_unique _ _ _ _ _ _ _ S S') as [<- <-]. exfalso. destruct NL as [NL|NL]; [lia|apply (NL e L')].
        + assert (NW : ~ s_within (l_rmax l) q1 q2). { intros [W'|[t [Ht W']]]; [lra|]. destruct W as [_ W]. specialize (W t Ht). lra. }
          rewrite (D2 NW). split; auto. intros i r N. exists r. split; auto. split; auto. split; [|auto with real].
          intros t e [<-|[]] [_ [_ [p1 [p2 [S' [W' _]]]]]]. destruct (slice_unique _ _ _ _ _ _ _ S S') as [<- <-]. contradiction.
      - rewrite slice_none by auto. exists res. split; auto. split; auto. intros i r N. exists r. split; auto. split; auto. split; [|auto with real].
        intros t e [<-|[]] [_ [ST' _]]. contradiction. }
    change (V2 (vx a') (vy a')) with (xy a'). change (V2 (vx b') (vy b')) with (xy b'). change (V2 (vx c') (vy c')) with (xy c').
    destruct STEP as [res1 [E1 [L1 S1]]]. rewrite E1. cbn [obind].
    destruct (IH rest res1 CF eq_refl) as [res2 [E2 [L2 S2]]]; [intros; apply TO; right; auto|lia|].
    exists res2. split; auto. split; [lia|]. intros i r N. destruct (S1 i r N) as [r1 [N1 [A1 [B1 C1]]]]. destruct (S2 i r1 N1) as [r2 [N2 [A2 [B2 C2]]]].
    exists r2. split; auto. cbn [map mtri]. split; [|split].
    + destruct A2 as [-> |[t [T L]]]; [|right; exists t; split; [right|]; auto]. destruct A1 as [-> |[t [[<-|[]] L]]]; auto. right. exists (a', b', c'). split; [left|]; auto.
    + intros t d [<-|T] L; [|eapply B2; eauto]. destruct (B1 (a', b', c') d (or_introl eq_refl) L) as [Z1 Z2]. destruct (C2 Z1). split; auto. lra.
    + intros RZ. destruct (C1 RZ) as [Z1 Z2]. destruct (C2 Z1). split; auto. lra.
Qed.
(** skipping a whole mesh *)
Lemma moved_combo : forall pose a b c x, in_triangle (s_moved pose a) (s_moved pose b) (s_moved pose c) x -> exists v, in_triangle a b c v /\ x = s_moved pose v.
Proof.
  intros [[p1 p2 p3 p4 p5 p6 p7 p8 p9] [o1 o2 o3]] a b c x [u [v [w [U [V [W [SUM ->]]]]]]].
  exists (V3 (u * vx a + v * vx b + w * vx c) (u * vy a + v * vy b + w * vy c) (u * vz a + v * vz b + w * vz c)). split; [exists u, v, w; auto|].
  replace w with (1 - u - v) by lra. unfold s_moved. cbn [tR MathTypes.tt mxx mxy mxz myx myy myz mzx mzy mzz vx vy vz]. apply V3_eq; ring.
Qed.
Lemma norm_sqrt : forall u : vec3 R, s_norm u = sqrt (s_norm2 u). Proof. reflexivity. Qed.
Lemma firstn_nth : forall {A} n (l : list A) i, (i < n)%nat -> nth_error (firstn n l) i = nth_error l i.
Proof. induction n as [|n IH]; intros l i H; [lia|]. destruct l as [|a l]; [destruct i; reflexivity|]. destruct i; [reflexivity|]. cbn. apply IH. lia. Qed.
Lemma norm2_tri : forall u v : vec3 R, s_norm u <= s_norm v + s_norm (s_diff u v).
Proof.
  intros u v. rewrite !norm_sqrt. set (A := sqrt (s_norm2 v)). set (B := sqrt (s_norm2 (s_diff u v))).
  assert (NN : forall x, 0 <= s_norm2 x). { intros [x y z]. unfold s_norm2, s_dot. cbn [vx vy vz]. pose proof (Rle_0_sqr x). pose proof (Rle_0_sqr y). pose proof (Rle_0_sqr z). unfold Rsqr in *. lra. }
  assert (A0 : 0 <= A) by apply sqrt_pos. assert (B0 : 0 <= B) by apply sqrt_pos.
  assert (AA : A * A = s_norm2 v) by (apply sqrt_sqrt, NN). assert (BB : B * B = s_norm2 (s_diff u v)) by (apply sqrt_sqrt, NN).
  rewrite <- (sqrt_square (A + B)) by lra. apply sqrt_le_1_alt.
  assert (CS : s_dot v (s_diff u v) <= A * B).
  { destruct (Rle_or_lt (s_dot v (s_diff u v)) 0) as [N|N]; [pose proof (Rmult_le_pos _ _ A0 B0); lra|].
    apply Rsqr_incr_0; [|lra|apply Rmult_le_pos; auto]. unfold Rsqr. replace (A * B * (A * B)) with ((A * A) * (B * B)) by ring. rewrite AA, BB.
    destruct v as [a b c], u as [p q r]. unfold s_norm2, s_dot, s_diff. cbn [vx vy vz]. set (x := p - a). set (y := q - b). set (z := r - c).
    pose proof (Rle_0_sqr (a * y - b * x)). pose proof (Rle_0_sqr (b * z - c * y)). pose proof (Rle_0_sqr (c * x - a * z)). unfold Rsqr in *. lra. }
  replace ((A + B) * (A + B)) with (A * A + B * B + 2 * (A * B)) by ring. rewrite AA, BB. 
  assert (s_norm2 u = s_norm2 v + s_norm2 (s_diff u v) + 2 * s_dot v (s_diff u v)); [|lra].
  destruct v as [a b c], u as [p q r]. unfold s_norm2, s_dot, s_diff. cbn [vx vy vz]. ring.
Qed.
Lemma moved_off : forall pose v, rigid pose -> s_norm (s_diff (s_moved pose v) (MathTypes.tt pose)) = s_norm v.
Proof.
  intros pose v RG. rewrite !norm_sqrt. f_equal. pose proof (rigid_dist2 pose v (V3 0 0 0) RG) as H. rewrite <- (moved_apply pose v), <- (moved_apply pose (V3 0 0 0)) in H.
  assert (E : s_moved pose (V3 0 0 0) = MathTypes.tt pose). { destruct pose as [[p1 p2 p3 p4 p5 p6 p7 p8 p9] [o1 o2 o3]]. unfold s_moved. cbn. apply V3_eq; ring. }
  rewrite E in H. destruct v as [x y z]. set (m := s_moved pose (V3 x y z)) in *. unfold s_dist2 in H. unfold s_norm2, s_dot, s_diff. cbn [vx vy vz] in *.
  transitivity (vx m * vx m - 2 * vx m * vx (MathTypes.tt pose) + vx (MathTypes.tt pose) * vx (MathTypes.tt pose) + (vy m * vy m - 2 * vy m * vy (MathTypes.tt pose) + vy (MathTypes.tt pose) * vy (MathTypes.tt pose)) + (vz m * vz m - 2 * vz m * vz (MathTypes.tt pose) + vz (MathTypes.tt pose) * vz (MathTypes.tt pose))); [ring|].
  etransitivity; [|etransitivity; [exact H|]]; ring.
Qed.
Lemma norm_z : forall v : vec3 R, Rabs (vz v) <= s_norm v.
Proof.
  intros [x y z]. unfold s_norm, s_dot. cbn [vx vy vz]. rewrite <- sqrt_Rsqr_abs. apply sqrt_le_1_alt. unfold Rsqr.
  pose proof (Rle_0_sqr x). pose proof (Rle_0_sqr y). unfold Rsqr in *. lra.
Qed.
Lemma skip_far : forall r rmax pose v, rigid pose -> s_norm v <= r ->
  (r < Rabs (vz (MathTypes.tt pose)) \/ rmax < s_norm (MathTypes.tt pose) - r) -> vz (s_moved pose v) <> 0 \/ rmax < s_norm (s_moved pose v).
Proof.
  intros r rmax pose v RG NV H. pose proof (moved_off pose v RG) as MO. destruct H as [H|H].
  - left. intros Z. pose proof (norm_z (s_diff (s_moved pose v) (MathTypes.tt pose))) as NZ. rewrite MO in NZ. unfold s_diff in NZ. cbn [vz] in NZ. rewrite Z in NZ.
    replace (0 - vz (MathTypes.tt pose)) with (- vz (MathTypes.tt pose)) in NZ by ring. rewrite Rabs_Ropp in NZ. lra.
  - right. pose proof (norm2_tri (MathTypes.tt pose) (s_moved pose v)) as T.
    assert (E : s_norm (s_diff (MathTypes.tt pose) (s_moved pose v)) = s_norm v).
    { rewrite <- MO. unfold s_norm. f_equal. unfold s_dot, s_diff. cbn [vx vy vz]. ring. }
    lra.
Qed.
Lemma resize_nth : forall n (l : list R) i, (i < n)%nat -> nth_error (resize n 0 l) i = Some (nth i l 0).
Proof.
  intros n l i H. unfold resize. destruct (le_lt_dec (length l) i) as [G|G].
  - rewrite nth_error_app2 by (rewrite firstn_length; lia). rewrite nth_overflow by auto. rewrite firstn_length.
    rewrite (nth_error_nth' _ 0) by (rewrite repeat_length; lia). rewrite nth_repeat. reflexivity.
  - rewrite nth_error_app1 by (rewrite firstn_length; lia). rewrite firstn_nth by lia. apply nth_error_nth'. auto.
Qed.
(** the range limit does not influence segments that reach into it *)
Lemma part_limits : forall (l : lrf R) a b p s is_ ranges, render_part (setRangeLimits l a b) p s is_ ranges = render_part l p s is_ ranges.
Proof.
  intros l a b p s is_. induction is_ as [|i is_ IH]; intros ranges; [reflexivity|]. cbn [render_part]. cbn [setRangeLimits l_rays].
  destruct (or_ub (nth_error (l_rays l) i)) as [ray| | |]; cbn [obind]; auto. match goal with |- obind ?x _ = _ => destruct x as [r'| | |]; cbn [obind]; auto end.
Qed.
Lemma line_limits : forall (l : lrf R) mn mx p q res, s_within (l_rmax l) p q -> s_within mx p q -> renderLine (setRangeLimits l mn mx) p q res = renderLine l p q res.
Proof.
  intros l mn mx p q res W W'. unfold renderLine. unR. destruct (_ || _ || _)%bool eqn:NZ; [reflexivity|]. apply orb_false_iff in NZ as [_ NZ]. apply Reqb_false in NZ.
  assert (KEY : forall r, s_within r p q -> (Rltb 0 r && Rltb (r * r) (line_dist2 p q (v2sub q p) (v2length2 (v2sub q p))))%bool = false).
  { intros r [Hr|[t [Ht Hr]]].
    - assert (F : Rltb 0 r = false) by (apply Rltb_false; auto). rewrite F. reflexivity.
    - assert (F : Rltb (r * r) (line_dist2 p q (v2sub q p) (v2length2 (v2sub q p))) = false); [|rewrite F; apply andb_false_r].
      apply Rltb_false. destruct (dist2_spec p q NZ) as [_ M]. specialize (M t Ht). lra. }
  cbn [setRangeLimits l_rmax]. rewrite (KEY mx W'), (KEY (l_rmax l) W). cbn [setRangeLimits l_half l_num].
  change (angleRawXY (setRangeLimits l mn mx) (v2x p) (v2y p)) with (angleRawXY l (v2x p) (v2y p)).
  change (angleRawXY (setRangeLimits l mn mx) (v2x q) (v2y q)) with (angleRawXY l (v2x q) (v2y q)).
  destruct (angleRawXY l (v2x p) (v2y p)) as [i1| | |]; cbn [obind]; auto. destruct (angleRawXY l (v2x q) (v2y q)) as [i2| | |]; cbn [obind]; auto.
  rewrite !part_limits. destruct (negb _); auto. destruct (Z.ltb (Z.max i1 i2 - Z.min i1 i2) _); auto. destruct (Z.ltb i1 i2); auto.
  destruct (render_part l p (v2sub q p) (urange (Z.to_N (Z.max 0 (Z.max i1 i2))) (l_num l)) (rr_ranges res)); cbn [obind]; auto. rewrite part_limits. reflexivity.
Qed.
(** drawing a list of segments *)
Fixpoint draw_segs (l : lrf R) (qs : list (vec2 R * vec2 R)) (res : rr R) : outcome (rr R) :=
  match qs with [] => Ret res | (p, q) :: r => obind (renderLine l p q res) (draw_segs l r) end.
Lemma tris_segs : forall l pts pose ts tris res, s_soup pts (map idx ts) = Some tris ->
  exists qs, s_slices (map (mtri pose) tris) qs /\ render_tris l pts pose ts res = draw_segs l qs res.
Proof.
  intros l pts pose ts. induction ts as [|[i1 i2 i3] ts IH]; intros tris res SP.
  - cbn in SP. injection SP as <-. exists []. split; [constructor|reflexivity].
  - cbn [map s_soup idx] in SP. rewrite !s_nth_nth_error in SP. cbn [ti1 ti2 ti3] in SP.
    destruct (nth_error pts (N.to_nat i1)) as [a|] eqn:A; [|discriminate]. destruct (nth_error pts (N.to_nat i2)) as [b|] eqn:B; [|discriminate].
    destruct (nth_error pts (N.to_nat i3)) as [c|] eqn:C; [|discriminate]. destruct (s_soup pts (map idx ts)) as [rest|] eqn:SR; [|discriminate]. injection SP as <-.
    cbn [render_tris ti1 ti2 ti3 map mtri]. unfold point_at. rewrite A, B, C. cbn [or_ub obind]. rewrite !moved_z, !moved_xy.
    set (a' := s_moved pose a). set (b' := s_moved pose b). set (c' := s_moved pose c).
    change (V2 (vx a') (vy a')) with (xy a'). change (V2 (vx b') (vy b')) with (xy b'). change (V2 (vx c') (vy c')) with (xy c').
    assert (ST : s_straddles a' b' c' \/ ~ s_straddles a' b' c').
    { unfold s_straddles. destruct (Rlt_or_le (vz a') 0), (Rlt_or_le (vz b') 0), (Rlt_or_le (vz c') 0); try (left; tauto); right; lra. }
    destruct ST as [ST|ST].
    + destruct (slice_some a' b' c' ST) as [q1 [q2 [E S]]]. rewrite E.
      assert (G : exists qs, s_slices (map (mtri pose) rest) qs /\ forall res', render_tris l pts pose ts res' = draw_segs l qs res').
      { clear - IH res. destruct (IH rest res eq_refl) as [qs [Q _]]. exists qs. split; auto. intros res'. destruct (IH rest res' eq_refl) as [qs' [Q' E']]. rewrite E'. f_equal.
        clear - Q Q'. revert qs' Q'. induction Q as [|a b c ts qs N Q IHQ|a b c p q ts qs N S Q IHQ]; intros qs' Q'; inversion Q'; subst; try contradiction; auto.
        rewrite (IHQ qs0) by auto. f_equal. match goal with H : s_slice a b c p0 q0 |- _ => destruct (slice_unique _ _ _ _ _ _ _ S H) as [<- <-] end. reflexivity. }
      destruct G as [qs [Q G]]. exists ((q1, q2) :: qs). split; [apply sl_cut; auto|]. cbn [draw_segs].
      destruct (renderLine l q1 q2 res) as [r1| | |]; cbn [obind]; [apply G|reflexivity..].
    + rewrite slice_none by auto. cbn [obind]. destruct (IH rest res eq_refl) as [qs [Q E]]. exists qs. split; [constructor; auto|auto].
Qed.
(** ** the whole scan *)
Lemma rays_length : forall l, config_ok l -> length (l_rays l) = N.to_nat (l_num l).
Proof. intros l [[_ [A [B _]]] _]. rewrite B, map_length, A, map_length, seq_length. reflexivity. Qed.
Lemma start_nth : forall n (ranges : list R) i, (i < n)%nat -> nth_error (if Nat.eqb (length ranges) n then ranges else resize n 0 ranges) i = Some (nth i ranges 0).
Proof. intros n ranges i H. destruct (Nat.eqb_spec (length ranges) n); [apply nth_error_nth'; lia|apply resize_nth; auto]. Qed.
Lemma start_length : forall n (ranges : list R), length (if Nat.eqb (length ranges) n then ranges else resize n 0 ranges) = n.
Proof. intros n ranges. destruct (Nat.eqb_spec (length ranges) n); auto. unfold resize. rewrite app_length, firstn_length, repeat_length. lia. Qed.
