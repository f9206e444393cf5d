(** * C88: points inside cylinders and convex polygons *)
From Coq Require Import ZArith NArith List Bool Lia Reals Lra.
From Verif Require Import Num MathTypes Outcome Mesh Box Shapes Spec SpecShapes P_Tac P_Math P_Mesh P_MeshGeo P_Shapes Props_Shapes Props_Mesh ShapeQuery SpecQuery P_Query P_Query2 P_Query3 P_Query5 Props_Query Props_Inside P_Prism.
Import ListNotations.
Local Open Scope R_scope.

Lemma crsf_spec : forall a b p, crsf a b p = s_cross2 (s_diff2 b a) (s_diff2 (V2 (vx p) (vy p)) a).
Proof. reflexivity. Qed.
Lemma prism_contains : forall q height (m : mesh R), (3 <= length q)%nat -> 0 < height -> s_strict_cw q ->
  is_mesh m (prism_pts (- height / 2) (height / 2) q) (prism_tris (length q)) ->
  exists soup, s_soup (m_points m) (map idx (m_tris m)) = Some soup /\ soup = flat_map (fanT (- height / 2) (height / 2) q) (seq 1 (length q - 2)) ++ flat_map (sideT (- height / 2) (height / 2) q) (seq 0 (length q)) /\
    forall rad p, s_max_radius (m_points m) rad -> (forall t, In t soup -> s_generic p (s_outside rad) t) ->
      exists ans, mesh_contains m p = Ret ans /\ (ans = true <-> s_in_prism q height p).
Proof.
  intros q height m N3 HP ST IM. pose proof (is_mesh_run _ _ _ _ _ IM) as RUN. destruct IM as [MP [MT _]]. eexists. split; [|split; [reflexivity|]].
  - rewrite MP, MT. apply prism_soup. lia.
  - intros rad p MR G. set (l := flat_map (fanT (- height / 2) (height / 2) q) (seq 1 (length q - 2)) ++ flat_map (sideT (- height / 2) (height / 2) q) (seq 0 (length q))) in *.
    assert (SO : soup_of m = Some l) by (unfold soup_of; rewrite MP, MT; apply prism_soup; lia).
    assert (NE : l <> []).
    { unfold l. replace (length q - 2)%nat with (S (length q - 3)) by lia. cbn. discriminate. }
    assert (CV : s_convex_mesh (m_points m) l).
    { intros a b c v I V. rewrite MP in V. apply (prism_support (- height / 2) (height / 2) q); auto; [lra|lia|]. apply strict_convex; auto. }
    assert (CL : s_closed_surface (map idx (m_tris m))) by (rewrite MT; apply prism_closed; lia).
    destruct (C87_exact m _ l rad p RUN SO MR CL NE CV (prism_flat q ST (- height / 2) (height / 2) ltac:(lra) N3) G) as [ans [A B]].
    exists ans. split; [exact A|]. rewrite B. unfold l. rewrite (prism_inside q ST (- height / 2) (height / 2) ltac:(lra) N3). reflexivity.
Qed.

(** contains() on a convex polygon shape: true exactly inside the prism (points in general position) *)
Theorem C88_polygon : forall fuel (s : shape R) q height, (3 <= length q)%nat -> (N.of_nat (length q) <= 2 ^ 30)%N -> (length q < fuel)%nat -> 0 < height -> s_strict_cw q ->
  exists s' soup, createConvexPolygon fuel s q height = Ret s' /\ s_soup (m_points (s_mesh s')) (map idx (m_tris (s_mesh s'))) = Some soup /\
    forall rad p, s_max_radius (m_points (s_mesh s')) rad -> (forall t, In t soup -> s_generic p (s_outside rad) t) ->
      exists ans, mesh_contains (s_mesh s') p = Ret ans /\ (ans = true <-> s_in_prism q height p).
Proof.
  intros fuel s q height N3 NB F HP ST. destruct (poly_mesh fuel s q height) as [m [E IM]]; [lia|auto..|].
  destruct (prism_contains q height m N3 HP ST IM) as [soup [S [_ H]]]. exists (shape_setMesh s m), soup. split; [exact E|]. split; [exact S|exact H].
Qed.
Print Assumptions C88_polygon.

(** the largest distance of a corner of the cylinder *)
Lemma cyl_radius : forall n radius height, (1 <= n)%nat -> s_max_radius (prism_pts (- height / 2) (height / 2) (s_regular n radius)) (sqrt (radius ^ 2 + (height / 2) ^ 2)).
Proof.
  intros n radius height N1.
  assert (EQ : forall v, In v (prism_pts (- height / 2) (height / 2) (s_regular n radius)) -> s_norm v = sqrt (radius ^ 2 + (height / 2) ^ 2) /\ vx v * vx v + vy v * vy v = radius * radius).
  { intros v V. apply prism_pts_in in V. destruct V as [p [P V]]. apply In_nth with (d := d2) in P. destruct P as [i [I <-]]. rewrite reg_len in I. rewrite reg_nth in V by lia.
    pose proof (sin2_cos2 (th n (INR i))) as SC. unfold Rsqr in SC. unfold rp, up in V. cbn [v2x v2y] in V. set (si := sin (th n (INR i))) in *. set (co := cos (th n (INR i))) in *.
    assert (C : co * co = 1 - si * si) by lra.
    destruct V as [-> | ->]; unfold s_norm, s_dot; cbn [vx vy vz]; (split; [f_equal; ring_simplify; replace (co ^ 2) with (1 - si * si) by (rewrite <- C; ring); field|]);
      replace (si * radius * (si * radius) + co * radius * (co * radius)) with ((si * si + co * co) * (radius * radius)) by ring; rewrite C; ring. }
  split; [apply sqrt_pos|]. split.
  - intros v V. rewrite (proj1 (EQ v V)). lra.
  - right. exists (up (- height / 2) (nth 0 (s_regular n radius) d2)).
    assert (V : In (up (- height / 2) (nth 0 (s_regular n radius) d2)) (prism_pts (- height / 2) (height / 2) (s_regular n radius))).
    { unfold prism_pts. apply in_flat_map. exists (nth 0 (s_regular n radius) d2). split; [apply nth_In; rewrite reg_len; lia|left; reflexivity]. }
    split; [exact V|apply EQ; exact V].
Qed.
Lemma reg_corner : forall n radius height v, (1 <= n)%nat -> In v (prism_pts (- height / 2) (height / 2) (s_regular n radius)) -> vx v * vx v + vy v * vy v = radius * radius.
Proof.
  intros n radius height v N1 V. apply prism_pts_in in V. destruct V as [p [P V]]. apply In_nth with (d := d2) in P. destruct P as [i [I <-]]. rewrite reg_len in I. rewrite reg_nth in V by lia.
  pose proof (sin2_cos2 (th n (INR i))) as SC. unfold Rsqr in SC. unfold rp, up in V. cbn [v2x v2y] in V. set (si := sin (th n (INR i))) in *. set (co := cos (th n (INR i))) in *.
  destruct V as [-> | ->]; cbn [vx vy vz]; replace (si * radius * (si * radius) + co * radius * (co * radius)) with ((si * si + co * co) * (radius * radius)) by ring; rewrite SC; ring.
Qed.
Lemma reg_incircle : forall n radius x y, (3 <= n)%nat -> x ^ 2 + y ^ 2 < (radius * cos (PI / INR n)) ^ 2 ->
  forall a b, In (a, b) (s_cyclic (s_regular n radius)) -> s_cross2 (s_diff2 b a) (s_diff2 (V2 x y) a) < 0.
Proof.
  intros n r x y N3 H a b AB. rewrite cyclic_map, reg_len in AB. apply in_map_iff in AB. destruct AB as [i [E I]]. apply in_seq in I. injection E as <- <-.
  rewrite reg_next, reg_nth by lia. assert (NP : 3 <= INR n) by (replace 3 with (INR 3) by (simpl; ring); apply le_INR; lia).
  set (d := PI / INR n) in *. unfold rp. cbn [v2x v2y]. replace (th n (INR i + 1)) with (th n (INR i) + 2 * d) by (unfold th, d; field; lra).
  set (t := th n (INR i)). rewrite sin_plus, cos_plus, sin_2a, cos_2a. pose proof PI_RGT_0.
  assert (D : 0 < d) by (unfold d; apply Rdiv_lt_0_compat; lra). assert (D2 : d < PI / 2).
  { unfold d. apply Rmult_lt_reg_r with (INR n); [lra|]. replace (PI / INR n * INR n) with PI by (field; lra). nra. }
  assert (SD : 0 < sin d) by (apply sin_gt_0; lra). assert (CD : 0 < cos d) by (apply cos_gt_0; lra).
  pose proof (sin2_cos2 d) as S1. pose proof (sin2_cos2 t) as S2. unfold Rsqr in S1, S2.
  set (sd := sin d) in *. set (cd := cos d) in *. set (st := sin t) in *. set (ct := cos t) in *. clearbody sd cd st ct.
  (* the side and its midpoint direction *)
  set (ux := st * cd + ct * sd). set (uy := ct * cd - st * sd).
  assert (U : ux * ux + uy * uy = 1) by (unfold ux, uy; transitivity ((st * st + ct * ct) * (sd * sd + cd * cd)); [ring|rewrite S1, S2; ring]).
  unfold s_cross2, s_diff2. cbn [v2x v2y].
  match goal with |- ?g < 0 => replace g with (2 * sd * r * (x * ux + y * uy) - 2 * sd * cd * (r * r)) end.
  - assert (RZ : r <> 0) by (intros ->; nra).
    assert (CS : (x * ux + y * uy) ^ 2 <= x ^ 2 + y ^ 2).
    { assert (0 <= (x * uy - y * ux) ^ 2) by apply pow2_ge_0. replace (x ^ 2 + y ^ 2) with ((x ^ 2 + y ^ 2) * (ux * ux + uy * uy)) by (rewrite U; ring). nra. }
    set (k := x * ux + y * uy) in *. clearbody k. assert (K : k ^ 2 < (r * cd) ^ 2) by lra.
    assert (RK : r * k < r * r * cd).
    { destruct (Rlt_le_dec (r * k) (r * r * cd)) as [|G]; auto. exfalso. assert (P : 0 < r * r * cd) by (assert (0 < r * r) by nra; nra).
      assert (Q : (r * r * cd) * (r * r * cd) <= (r * k) * (r * k)) by nra.
      assert (Q' : (r * k) * (r * k) = r * r * k ^ 2) by ring. assert (Q2 : (r * r * cd) * (r * r * cd) = r * r * (r * cd) ^ 2) by ring. assert (0 < r * r) by nra. nra. }
    nra.
  - assert (A1 : cd * cd = 1 - sd * sd) by lra. assert (A2 : ct * ct = 1 - st * st) by lra. unfold ux, uy. ring [A1 A2].
Qed.
Lemma disc_convex : forall r, s_convex (fun v => vx v * vx v + vy v * vy v <= r).
Proof.
  intros r a b t A B T. assert (X := ball_convex r (V3 (vx a) (vy a) 0) (V3 (vx b) (vy b) 0) t).
  unfold s_norm2, s_dot, s_between in *. cbn [vx vy vz] in *. specialize (X ltac:(lra) ltac:(lra) T). lra.
Qed.
Lemma slab_convex : forall h, s_convex (fun v => - h / 2 <= vz v <= h / 2).
Proof. intros h a b t A B T. unfold s_between. cbn [vz]. nra. Qed.
(** contains() on a cylinder shape with n corners: true exactly inside the prism over the regular polygon; in particular true
    for points closer to the axis than radius * cos (PI / n), false for points further away than the radius *)
Theorem C88_cylinder : forall fuel (s : shape R) radius height n, (3 <= n)%nat -> (N.of_nat n <= 2 ^ 31)%N -> (n < fuel)%nat -> 0 < height -> radius <> 0 ->
  exists s' soup, createCylinder fuel s radius height (N.of_nat n) = Ret s' /\ s_soup (m_points (s_mesh s')) (map idx (m_tris (s_mesh s'))) = Some soup /\
    forall p, (forall t, In t soup -> s_generic p (s_outside (sqrt (radius ^ 2 + (height / 2) ^ 2))) t) ->
      exists ans, mesh_contains (s_mesh s') p = Ret ans /\ (ans = true <-> s_in_prism (s_regular n radius) height p) /\
        (vx p ^ 2 + vy p ^ 2 < (radius * cos (PI / INR n)) ^ 2 -> - height / 2 < vz p < height / 2 -> ans = true) /\
        (radius ^ 2 < vx p ^ 2 + vy p ^ 2 -> ans = false) /\ (height / 2 < Rabs (vz p) -> ans = false).
Proof.
  intros fuel s radius height n N3 NB F HP RZ. destruct (cyl_mesh fuel s radius height n) as [m [E IM]]; [lia|auto..|].
  change (ndiv (nopp height) n2) with (- height / 2) in IM. change (ndiv height n2) with (height / 2) in IM. rewrite cyl_pts_reg in IM.
  pose proof (reg_len n radius) as LQ. pose proof (is_mesh_run _ _ _ _ _ IM) as RUN.
  assert (IM' : is_mesh m (prism_pts (- height / 2) (height / 2) (s_regular n radius)) (prism_tris (length (s_regular n radius)))) by (rewrite LQ; exact IM).
  destruct (prism_contains (s_regular n radius) height m ltac:(lia) HP (reg_strict n radius RZ) IM') as [soup [S [_ H]]].
  exists (shape_setMesh s m), soup. split; [exact E|]. split; [exact S|]. cbn [shape_setMesh s_mesh]. intros p G.
  assert (MR : s_max_radius (m_points m) (sqrt (radius ^ 2 + (height / 2) ^ 2))) by (rewrite (proj1 IM); apply cyl_radius; lia).
  assert (CL : s_closed_surface (map idx (m_tris m))) by (rewrite (proj1 (proj2 IM)); apply prism_closed; lia).
  destruct (H _ p MR G) as [ans [A B]]. exists ans. split; [exact A|]. split; [exact B|]. split; [|split].
  - intros X Z. apply B. split; [exact Z|]. apply reg_incircle; auto.
  - intros X. assert (K := C35_convex_partial _ m _ soup _ p RUN S MR CL (disc_convex (radius * radius))). rewrite A in K. cbn beta in K.
    assert (KK : Ret ans = Ret false); [|injection KK; auto]. apply K; auto; [|intros Y; cbn beta in Y; nra]. intros v V. rewrite (proj1 IM) in V.
    rewrite (reg_corner n radius height v) by (auto; lia). lra.
  - intros X. assert (K := C35_convex_partial _ m _ soup _ p RUN S MR CL (slab_convex height)). rewrite A in K. cbn beta in K.
    assert (KK : Ret ans = Ret false); [|injection KK; auto]. apply K; auto.
    + intros v V. rewrite (proj1 IM) in V. apply prism_pts_in in V. destruct V as [x [_ [-> | ->]]]; unfold up; cbn [vz]; lra.
    + intros Y. unfold Rabs in X. destruct (Rcase_abs (vz p)); lra.
Qed.
Print Assumptions C88_cylinder.

(** ** a cylinder with four corners, and a point of it *)
Lemma reg4 : s_regular 4 4 = [V2 0 4; V2 4 0; V2 0 (-4); V2 (-4) 0].
Proof.
  unfold s_regular. cbn [seq map].
  replace (2 * PI * INR 0 / INR 4) with 0 by (cbn; field). replace (2 * PI * INR 1 / INR 4) with (PI / 2) by (cbn; field).
  replace (2 * PI * INR 2 / INR 4) with PI by (cbn; field). replace (2 * PI * INR 3 / INR 4) with (3 * (PI / 2)) by (cbn; field).
  rewrite sin_0, cos_0, sin_PI2, cos_PI2, sin_PI, cos_PI, sin_3PI2, cos_3PI2. repeat (f_equal; try lra).
Qed.
Example C88_nonvacuous : (3 <= 4)%nat /\ (N.of_nat 4 <= 2 ^ 30)%N /\ (4 < 5)%nat /\ 0 < 6 /\ s_strict_cw (s_regular 4 4) /\
  sqrt (4 ^ 2 + (6 / 2) ^ 2) = 5 /\
  (exists s' soup, createCylinder 5 shape_new 4 6 4 = Ret s' /\ s_soup (m_points (s_mesh s')) (map idx (m_tris (s_mesh s'))) = Some soup /\
    (forall t, In t soup -> s_generic (V3 (1/10) (1/5) (3/10)) (s_outside 5) t)) /\
  s_in_prism (s_regular 4 4) 6 (V3 (1/10) (1/5) (3/10)).
Proof.
  assert (SQ : sqrt (4 ^ 2 + (6 / 2) ^ 2) = 5) by (replace (4 ^ 2 + (6 / 2) ^ 2) with (5 * 5) by field; apply sqrt_square; lra).
  split; [lia|]. split; [lia|]. split; [lia|]. split; [lra|]. split; [apply reg_strict; lra|]. split; [exact SQ|]. split.
  - destruct (cyl_mesh 5 (shape_new : shape R) 4 6 4 ltac:(lia) ltac:(lia) ltac:(lia)) as [m [E IM]]. exists (shape_setMesh shape_new m). eexists. split; [exact E|].
    change (ndiv (nopp 6) n2) with (- 6 / 2) in IM. change (ndiv 6 n2) with (6 / 2) in IM. rewrite cyl_pts_reg in IM. destruct IM as [MP [MT _]].
    cbn [shape_setMesh s_mesh]. rewrite MP, MT. split; [rewrite reg4; reflexivity|].
    replace (- 6 / 2) with (-3) by field. replace (6 / 2) with 3 by field.
    intros t I. cbn [map In v2x v2y] in I.
    repeat (destruct I as [<-|I]; [gen1 20 20 20 35|]). destruct I.
  - rewrite reg4. split; [cbn [vz]; lra|]. intros a b AB. cbn in AB. unfold s_cross2, s_diff2. destruct AB as [AB|[AB|[AB|[AB|[]]]]]; injection AB as <- <-; cbn [v2x v2y vx vy]; lra.
Qed.
