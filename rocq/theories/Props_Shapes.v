(** * Properties C62-C64: cylinders and convex polygon prisms *)
From Coq Require Import ZArith NArith List Bool Lia Reals Lra.
From Verif Require Import Num MathTypes Outcome Mesh Box Spec P_Tac P_Math P_Mesh P_MeshGeo P_Float Props_Box Shapes SpecShapes P_Shapes.
Import ListNotations.

(** ** C62: generated prisms are index-valid and closed, for every scalar type *)
Theorem C62_cylinder : forall (T : Type) (NT : Num T) (TR : Trig T) fuel (s : shape T) radius height n,
  (3 <= n)%nat -> (N.of_nat n <= 2 ^ 31)%N -> (n < fuel)%nat ->
  exists s', createCylinder fuel s radius height (N.of_nat n) = Ret s' /\
    length (m_points (s_mesh s')) = (2 * n)%nat /\ length (m_tris (s_mesh s')) = (4 * n - 4)%nat /\
    s_valid (length (m_points (s_mesh s'))) (map idx (m_tris (s_mesh s'))) /\ s_closed_surface (map idx (m_tris (s_mesh s'))).
Proof.
  intros T NT TR fuel s radius height n N3 NB F. destruct (cyl_mesh fuel s radius height n) as [m [E [MP [MT _]]]]; [lia|auto..|].
  eexists. split; [exact E|]. cbn [shape_setMesh s_mesh]. rewrite MP, MT.
  assert (L : length (prism_pts (ndiv (nopp height) n2) (ndiv height n2) (cyl_pts radius n)) = (2 * n)%nat).
  { unfold prism_pts. rewrite (flat_len _ _ _ 2) by reflexivity. unfold cyl_pts. rewrite map_length, seq_length. auto. }
  rewrite L. split; [auto|]. split; [|split; [apply prism_valid|apply prism_closed]; lia].
  rewrite <- (map_length idx), MT. apply prism_len. lia.
Qed.
Print Assumptions C62_cylinder.
Theorem C62_polygon : forall (T : Type) (NT : Num T) (TR : Trig T) fuel (s : shape T) q height,
  (3 <= length q)%nat -> (N.of_nat (length q) <= 2 ^ 30)%N -> (length q < fuel)%nat ->
  exists s', createConvexPolygon fuel s q height = Ret s' /\
    length (m_points (s_mesh s')) = (2 * length q)%nat /\ length (m_tris (s_mesh s')) = (4 * length q - 4)%nat /\
    s_valid (length (m_points (s_mesh s'))) (map idx (m_tris (s_mesh s'))) /\ s_closed_surface (map idx (m_tris (s_mesh s'))).
Proof.
  intros T NT TR fuel s q height N3 NB F. destruct (poly_mesh fuel s q height) as [m [E [MP [MT _]]]]; [lia|auto..|].
  eexists. split; [exact E|]. cbn [shape_setMesh s_mesh]. rewrite MP, MT.
  assert (L : length (prism_pts (ndiv (nopp height) n2) (ndiv height n2) q) = (2 * length q)%nat).
  { unfold prism_pts. rewrite (flat_len _ _ _ 2) by reflexivity. auto. }
  rewrite L. split; [auto|]. split; [|split; [apply prism_valid|apply prism_closed]; lia].
  rewrite <- (map_length idx), MT. apply prism_len. lia.
Qed.
Print Assumptions C62_polygon.
(** a hexagon and a triangle meet the hypotheses *)
Example C62_nonvacuous : (3 <= 6)%nat /\ (N.of_nat 6 <= 2 ^ 31)%N /\ (6 < 7)%nat /\
  (exists s', createCylinder 7 (Shape_ mesh_new false (V3 0 0 0) (V3 0 0 0))%R 1%R 2%R 6%N = Ret s') /\
  (exists q : list (vec2 R), length q = 3%nat /\ exists s', createConvexPolygon 4 (Shape_ mesh_new false (V3 0 0 0) (V3 0 0 0))%R q 2%R = Ret s').
Proof.
  repeat split; try lia. { eexists. reflexivity. }
  exists [V2 0 0; V2 0 1; V2 1 0]%R. split; [reflexivity|]. eexists. reflexivity.
Qed.

(** ** C63: geometry of the prisms (exact arithmetic) *)
Local Open Scope R_scope.
(** both copies of every corner, at -height/2 and height/2, and nothing else *)
Definition s_prism_corners (q : list (vec2 R)) (h : R) (pts : list (vec3 R)) : Prop :=
  forall v, In v pts <-> exists p, In p q /\ vx v = v2x p /\ vy v = v2y p /\ (vz v = - h / 2 \/ vz v = h / 2).
Lemma prism_corners : forall q h, s_prism_corners q h (prism_pts (- h / 2) (h / 2) q).
Proof.
  intros q h v. split.
  - intros H. apply prism_pts_in in H. destruct H as [p [P [-> | ->]]]; exists p; cbn [up vx vy vz]; auto.
  - intros [p [P [X [Y Z]]]]. apply in_flat_map. exists p. split; auto. destruct v as [a b c]. cbn [vx vy vz] in *. subst a b.
    destruct Z as [-> | ->]; [left|right; left]; auto.
Qed.
Theorem C63_polygon : forall fuel (s : shape R) q height, (3 <= length q)%nat -> (N.of_nat (length q) <= 2 ^ 30)%N -> (length q < fuel)%nat ->
  exists s' soup, createConvexPolygon fuel s q height = Ret s' /\
    s_prism_corners q height (m_points (s_mesh s')) /\
    s_soup (m_points (s_mesh s')) (map idx (m_tris (s_mesh s'))) = Some soup /\
    (* volume = height * clockwise area *)
    s_volume6 soup / 6 = height * (- s_area2 q / 2) /\
    (* clockwise convex input: the solid lies behind every triangle *)
    (0 <= height -> s_convex_cw q -> forall a b c v, In (a, b, c) soup -> In v (m_points (s_mesh s')) -> s_not_front a b c v).
Proof.
  intros fuel s q height N3 NB F. destruct (poly_mesh fuel s q height) as [m [E [MP [MT _]]]]; [lia|auto..|].
  exists (shape_setMesh s m), (flat_map (fanT (- height / 2) (height / 2) q) (seq 1 (length q - 2)) ++ flat_map (sideT (- height / 2) (height / 2) q) (seq 0 (length q))).
  split; [exact E|]. cbn [shape_setMesh s_mesh].
  change (ndiv (nopp height) n2) with (- height / 2) in MP. change (ndiv height n2) with (height / 2) in MP.
  rewrite MP, MT. split; [apply prism_corners|]. split; [apply prism_soup; lia|]. split.
  - rewrite prism_vol, area2_sum by lia. field.
  - intros H0 CV a b c v I V. apply (prism_support (- height / 2) (height / 2) q); auto; [lra|lia].
Qed.
Print Assumptions C63_polygon.
Theorem C63_cylinder : forall fuel (s : shape R) radius height n, (3 <= n)%nat -> (N.of_nat n <= 2 ^ 31)%N -> (n < fuel)%nat ->
  exists s' soup, createCylinder fuel s radius height (N.of_nat n) = Ret s' /\
    s_prism_corners (s_regular n radius) height (m_points (s_mesh s')) /\
    (forall v, In v (m_points (s_mesh s')) -> vx v * vx v + vy v * vy v = radius * radius /\ (vz v = - height / 2 \/ vz v = height / 2)) /\
    s_soup (m_points (s_mesh s')) (map idx (m_tris (s_mesh s'))) = Some soup /\
    s_volume6 soup / 6 = height * (INR n * (radius * radius) * sin (2 * PI / INR n) / 2) /\
    (0 < height -> radius <> 0 -> 0 < s_volume6 soup) /\
    (0 <= height -> forall a b c v, In (a, b, c) soup -> In v (m_points (s_mesh s')) -> s_not_front a b c v).
Proof.
  intros fuel s radius height n N3 NB F. destruct (cyl_mesh fuel s radius height n) as [m [E [MP [MT _]]]]; [lia|auto..|].
  rewrite cyl_pts_reg in MP. set (q := s_regular n radius) in *.
  assert (LQ : length q = n) by apply reg_len.
  exists (shape_setMesh s m), (flat_map (fanT (- height / 2) (height / 2) q) (seq 1 (length q - 2)) ++ flat_map (sideT (- height / 2) (height / 2) q) (seq 0 (length q))).
  split; [exact E|]. cbn [shape_setMesh s_mesh].
  change (ndiv (nopp height) n2) with (- height / 2) in MP. change (ndiv height n2) with (height / 2) in MP.
  rewrite MP, MT. rewrite <- LQ at 1.
  assert (V : s_volume6 (flat_map (fanT (- height / 2) (height / 2) q) (seq 1 (length q - 2)) ++ flat_map (sideT (- height / 2) (height / 2) q) (seq 0 (length q)))
              = 3 * height * (INR n * (radius * radius) * sin (2 * PI / INR n))).
  { rewrite prism_vol by lia. rewrite <- area2_sum. unfold q. rewrite reg_area by lia. field. }
  split; [apply prism_corners|]. split; [|split; [|split; [|split]]].
  - intros v Hv. apply prism_corners in Hv. destruct Hv as [p [P [-> [-> Z]]]]. split; auto. apply In_nth with (d := d2) in P. destruct P as [i [I <-]].
    rewrite LQ in I. unfold q. rewrite reg_nth by lia. unfold rp. cbn [v2x v2y]. pose proof (sin2_cos2 (th n (INR i))) as SC. unfold Rsqr in SC.
    transitivity ((sin (th n (INR i)) * sin (th n (INR i)) + cos (th n (INR i)) * cos (th n (INR i))) * (radius * radius)); [ring|]. rewrite SC. ring.
  - apply prism_soup. lia.
  - rewrite V. field.
  - intros HP RN. rewrite V. pose proof PI_RGT_0. assert (N3' : 3 <= INR n) by (replace 3 with (INR 3) by (simpl; ring); apply le_INR; lia).
    assert (0 < radius * radius) by (destruct (Rtotal_order radius 0) as [?|[?|?]]; [nra|contradiction|nra]).
    assert (0 < sin (2 * PI / INR n)).
    { apply sin_gt_0.
      - apply Rdiv_lt_0_compat; lra.
      - apply Rmult_lt_reg_r with (INR n); [lra|]. unfold Rdiv. rewrite Rmult_assoc, Rinv_l by lra. nra. }
    apply Rmult_lt_0_compat; [lra|]. apply Rmult_lt_0_compat; [|assumption]. apply Rmult_lt_0_compat; lra.
  - intros H0 a b c v I Hv. apply (prism_support (- height / 2) (height / 2) q); auto; [lra|lia|]. apply reg_convex. lia.
Qed.
Print Assumptions C63_cylinder.
(** the unit square, clockwise, is convex with positive clockwise area *)
Example C63_nonvacuous : exists q, (3 <= length q)%nat /\ s_convex_cw q /\ - s_area2 q / 2 = 1.
Proof.
  exists [V2 0 0; V2 0 1; V2 1 1; V2 1 0]. split; [cbn; lia|]. split.
  - intros a b p AB P. cbn in AB, P. unfold s_cross2, s_diff2.
    destruct AB as [AB|[AB|[AB|[AB|[]]]]]; injection AB as <- <-; destruct P as [<-|[<-|[<-|[<-|[]]]]]; cbn; lra.
  - unfold s_area2, s_cross2. cbn. lra.
Qed.

(** ** C64: degenerate input *)
Lemma cyl_any : forall (T : Type) (NT : Num T) (TR : Trig T) fuel (s : shape T) radius height n,
  (n < 2 ^ 32)%N -> (2 ^ 32 <= N.of_nat fuel)%N -> exists s', createCylinder fuel s radius height n = Ret s'.
Proof.
  intros T NT TR fuel s radius height n L F.
  assert (X : forall (body : N -> mesh T -> outcome (mesh T)) f i bound m, (i <= 1)%N -> (bound < 2 ^ 32)%N -> (forall k m, body k m = Ret (f k m)) ->
    exists m', for_u32 fuel i bound body m = Ret m').
  { intros body f i bound m I B H. destruct (N.le_gt_cases bound i) as [G|G].
    - exists m. apply for_nil; lia.
    - exists (fold_left (fun s k => f k s) (Nr (N.to_nat i) (N.to_nat (bound - i))) m). rewrite <- (Nnat.N2Nat.id i) at 1. apply (for_spec _ body f bound (N.to_nat (bound - i))); try lia. intros. apply H. }
  unfold createCylinder.
  match goal with |- context [for_u32 fuel 0 n ?b mesh_new] => destruct (X b (fun i m => cyl_corner radius height n i m) 0%N n mesh_new) as [m1 ->]; [lia|auto|reflexivity|] end.
  cbn [obind].
  match goal with |- context [for_u32 fuel 1 ?c ?b m1] => destruct (X b (fun i m => addTriangle (addTriangle m 0 (u32 (2 * i)) (u32 (u32 (2 * i) + 2))) 1 (u32 (u32 (2 * i) + 3)) (u32 (u32 (2 * i) + 1))) 1%N c m1) as [m2 ->]; [lia| |reflexivity|] end.
  { unfold u32. apply N.mod_lt. discriminate. }
  cbn [obind].
  match goal with |- context [for_u32 fuel 0 n ?b m2] => destruct (X b (fun i m => addTriangle (addTriangle m (u32 (i * 2)) (u32 (u32 (i * 2) + 1)) (u32 (N.modulo (u32 (i + 1)) n * 2)))
    (u32 (u32 (i * 2) + 1)) (u32 (u32 (N.modulo (u32 (i + 1)) n * 2) + 1)) (u32 (N.modulo (u32 (i + 1)) n * 2))) 0%N n m2) as [m3 ->]; [lia|auto|reflexivity|] end.
  cbn [obind]. eauto.
Qed.
(** createCylinder returns for every unsigned corner count, within 2^32 iterations per loop *)
Theorem C64_cylinder : forall (T : Type) (NT : Num T) (TR : Trig T) fuel (s : shape T) radius height n,
  (n < 2 ^ 32)%N -> (2 ^ 32 <= N.of_nat fuel)%N -> exists s', createCylinder fuel s radius height n = Ret s'.
Proof. exact cyl_any. Qed.
Print Assumptions C64_cylinder.
(** ... but with no corners the triangle loop wraps around: no points, and 2 * (2^32 - 2) triangles that refer to points that do not exist *)
Theorem C64_cylinder_zero_refuted : forall (T : Type) (NT : Num T) (TR : Trig T) fuel (s : shape T) radius height,
  (2 ^ 32 <= N.of_nat fuel)%N -> exists s', createCylinder fuel s radius height 0 = Ret s' /\ m_points (s_mesh s') = [] /\
    (N.of_nat (length (m_tris (s_mesh s'))) = 2 * (2 ^ 32 - 2))%N /\ ~ s_valid (length (m_points (s_mesh s'))) (map idx (m_tris (s_mesh s'))).
Proof.
  intros T NT TR fuel s radius height F. unfold createCylinder. rewrite for_nil by lia. cbn [obind].
  change (u32 (0 + 4294967295)) with 4294967295%N. set (K := N.to_nat 4294967294).
  assert (KE : N.of_nat K = 4294967294%N) by (unfold K; apply Nnat.N2Nat.id). clearbody K.
  match goal with |- context [for_u32 fuel 1 ?c ?b ?m0] => rewrite (for_spec _ b (fun i m => addTriangle (addTriangle m 0 (u32 (2 * i)) (u32 (u32 (2 * i) + 2))) 1 (u32 (u32 (2 * i) + 3)) (u32 (u32 (2 * i) + 1)))
    c K 1%nat) end; [|lia|lia|lia|reflexivity].
  cbn [obind]. rewrite for_nil by lia. cbn [obind]. eexists. split; [reflexivity|]. cbn [shape_setMesh s_mesh].
  rewrite fold_Nr.
  match goal with |- context [fold_left ?f (seq 1 K) mesh_new] => set (G := f);
    assert (I : is_mesh (fold_left G (seq 1 K) (@mesh_new T NT)) [] ([] ++ flat_map (fun i => let k := N.of_nat i in [(0%N, u32 (2 * k), u32 (u32 (2 * k) + 2)); (1%N, u32 (u32 (2 * k) + 3), u32 (u32 (2 * k) + 1))]) (seq 1 K))) end.
  { apply im_fold; [apply im_new|]. intros m ts i _ M. unfold G. cbv zeta.
    change [(0%N, u32 (2 * N.of_nat i), u32 (u32 (2 * N.of_nat i) + 2)); (1%N, u32 (u32 (2 * N.of_nat i) + 3), u32 (u32 (2 * N.of_nat i) + 1))]
      with ([(0%N, u32 (2 * N.of_nat i), u32 (u32 (2 * N.of_nat i) + 2))] ++ [(1%N, u32 (u32 (2 * N.of_nat i) + 3), u32 (u32 (2 * N.of_nat i) + 1))]).
    rewrite app_assoc. apply im_tri, im_tri. exact M. }
  destruct I as [P [TS _]]. rewrite P, TS. split; [reflexivity|]. cbn [app]. split.
  - rewrite <- (map_length idx), TS. cbn [app]. rewrite (flat_len _ _ _ 2) by reflexivity. rewrite seq_length. change (2 ^ 32)%N with 4294967296%N. lia.
  - intros V. destruct K as [|K]; [lia|]. cbn [seq flat_map app] in V. specialize (V 0%N _ _ (or_introl eq_refl)). cbn [length] in V. lia.
Qed.
Print Assumptions C64_cylinder_zero_refuted.
(** createConvexPolygon of an empty list never returns: points.size() - 1 is 2^64 - 1, above every unsigned int *)
Theorem C64_polygon_empty_refuted : forall (T : Type) (NT : Num T) (TR : Trig T) fuel (s : shape T) height s',
  createConvexPolygon fuel s [] height <> Ret s' /\ createConvexPolygon fuel s [] height <> Exn.
Proof.
  intros T NT TR fuel s height s'. unfold createConvexPolygon. cbn [length N.of_nat fold_left].
  change (N.modulo (0 + 18446744073709551615) 18446744073709551616) with 18446744073709551615%N.
  match goal with |- context [for_u32 fuel 1 ?c ?b ?m0] => destruct (for_diverges _ b c) with (fuel := fuel) (i := 1%N) (s := m0) as [-> | ->] end; try (split; discriminate); try lia.
  intros i m. cbv zeta. destruct (N.eqb (u32 (2 * i)) 2147483646); [exists m; auto|eauto].
Qed.
Print Assumptions C64_polygon_empty_refuted.
(** every other list returns; up to two corners give a flat mesh without top and bottom *)
Theorem C64_polygon_partial : forall (T : Type) (NT : Num T) (TR : Trig T) fuel (s : shape T) q height,
  q <> [] -> (N.of_nat (length q) <= 2 ^ 30)%N -> (length q < fuel)%nat -> exists s', createConvexPolygon fuel s q height = Ret s' /\
    length (m_points (s_mesh s')) = (2 * length q)%nat /\ s_valid (length (m_points (s_mesh s'))) (map idx (m_tris (s_mesh s'))).
Proof.
  intros T NT TR fuel s q height NE NB F. destruct (le_lt_dec 2 (length q)) as [L2|L2].
  - destruct (poly_mesh fuel s q height) as [m [E [MP [MT _]]]]; [lia|auto..|]. eexists. split; [exact E|]. cbn [shape_setMesh s_mesh]. rewrite MP, MT.
    assert (L : length (prism_pts (ndiv (nopp height) n2) (ndiv height n2) q) = (2 * length q)%nat).
    { unfold prism_pts. rewrite (flat_len _ _ _ 2) by reflexivity. auto. }
    rewrite L. split; [reflexivity|apply prism_valid].
  - destruct q as [|p [|]]; [contradiction| |cbn in L2; lia]. destruct fuel as [|[|fuel]]; cbn [length] in F; [lia..|].
    unfold createConvexPolygon. rewrite for_nil by (cbn; lia). cbn [obind length N.of_nat Pos.of_succ_nat].
    cbn [for_u32 N.ltb N.compare obind]. change (N.modulo (u32 (0 + 1)) 1) with 0%N. cbn [N.leb N.compare obind].
    change (N.ltb (u32 (0 + 1)) 1) with false. cbn [obind]. eexists. split; [reflexivity|]. split; [reflexivity|].
    intros i j k H. cbn in H. destruct H as [H|[H|[]]]; injection H as <- <- <-; cbn; lia.
Qed.
Print Assumptions C64_polygon_partial.
Example C64_nonvacuous : (0 < 2 ^ 32)%N /\ (2 ^ 32 <= N.of_nat (N.to_nat (2 ^ 32)))%N /\ [V2 1 2] <> [].
Proof. rewrite Nnat.N2Nat.id. repeat split; [lia|discriminate]. Qed.
