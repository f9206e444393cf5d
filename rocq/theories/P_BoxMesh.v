(** Box meshes, enclose, radii; Shape bounding boxes. *)
From Coq Require Import ZArith NArith List Bool Lia Reals Lra Psatz.
From Verif Require Import Num MathTypes Outcome Mesh Box Spec NumOrd P_Tac P_Math P_Rot P_Mesh P_MeshGeo P_Box.
Import ListNotations.

Section Gen.
  Context {T : Type} {NT : Num T}.
  Definition corners8 (mn mx : vec3 T) : list (vec3 T) :=
    [V3 (vx mn) (vy mn) (vz mn); V3 (vx mx) (vy mn) (vz mn); V3 (vx mn) (vy mx) (vz mn); V3 (vx mx) (vy mx) (vz mn);
     V3 (vx mn) (vy mn) (vz mx); V3 (vx mx) (vy mn) (vz mx); V3 (vx mn) (vy mx) (vz mx); V3 (vx mx) (vy mx) (vz mx)].
  Definition box_tris : list (N * N * N) :=
    [(1,0,2);(1,2,3);(4,5,6);(6,5,7);(0,4,2);(2,4,6);(5,1,3);(5,3,7);(0,1,4);(4,1,5);(3,2,6);(3,6,7)]%N.
  Definition clean (pts : list (vec3 T)) ts : mesh T := MkMesh pts ts n0 n0 [].
  Lemma addP_eq : forall pts ts x y z,
    addP (clean pts ts) x y z = (u32 (N.of_nat (length pts)), clean (pts ++ [V3 x y z]) ts).
  Proof. reflexivity. Qed.
  Lemma addT_eq : forall pts ts i j k, addTriangle (clean pts ts) i j k = clean pts (ts ++ [TI i j k]).
  Proof. reflexivity. Qed.
  Lemma gen_clean : forall mn mx (m : mesh T),
    generate_mesh mn mx m = generate_mesh mn mx (clean (m_points m) (m_tris m)).
  Proof. reflexivity. Qed.
  Definition tri_of (n : nat) (t : N * N * N) : triI := let '(i, j, k) := t in
    TI (u32 (N.of_nat n + i)) (u32 (N.of_nat n + j)) (u32 (N.of_nat n + k)).
  Lemma generate_eq : forall mn mx pts ts,
    generate_mesh mn mx (clean pts ts) = clean (pts ++ corners8 mn mx) (ts ++ map (tri_of (length pts)) box_tris).
  Proof.
    intros mn mx pts ts. unfold generate_mesh.
    assert (L : forall l : list (vec3 T), N.of_nat (length (pts ++ l)) = (N.of_nat (length pts) + N.of_nat (length l))%N)
      by (intros; rewrite app_length; lia).
    assert (L0 : N.of_nat (length pts) = (N.of_nat (length pts) + 0)%N) by lia.
    rewrite addP_eq, L0. cbv beta iota.
    repeat (rewrite addP_eq; cbv beta iota; rewrite <- ?app_assoc; cbn [app]; rewrite L;
            match goal with |- context [N.of_nat (length (?a :: ?b))] => 
              let k := eval cbv in (N.of_nat (length (a :: b))) in change (N.of_nat (length (a :: b))) with k end).
    rewrite <- ?app_assoc; cbn [app].
    rewrite !addT_eq. rewrite <- !app_assoc. cbn [app]. reflexivity.
  Qed.
  Lemma generate_points : forall mn mx (m : mesh T),
    m_points (generate_mesh mn mx m) = m_points m ++ corners8 mn mx.
  Proof. intros. rewrite gen_clean, generate_eq. reflexivity. Qed.
  Lemma generate_tris : forall mn mx (m : mesh T), (N.of_nat (length (m_points m)) + 8 < 2^32)%N ->
    map idx (m_tris (generate_mesh mn mx m)) = map idx (m_tris m) ++
      map (fun '(i, j, k) => (N.of_nat (length (m_points m)) + i, N.of_nat (length (m_points m)) + j, N.of_nat (length (m_points m)) + k)%N) box_tris.
  Proof.
    intros mn mx m H. rewrite gen_clean, generate_eq. cbn [m_tris clean]. rewrite map_app, map_map. f_equal.
    apply map_ext_in. intros [[i j] k] I. unfold tri_of, idx. cbn [ti1 ti2 ti3].
    assert (i < 8 /\ j < 8 /\ k < 8)%N.
    { repeat (destruct I as [I|I]; [injection I as <- <- <-; lia|]). destruct I. }
    unfold u32. rewrite !N.mod_small by lia. reflexivity.
  Qed.
  Lemma box_make_points : forall mn mx : vec3 T, m_points (b_mesh (box_make mn mx)) = corners8 mn mx.
  Proof. intros. unfold box_make. cbn [b_mesh]. rewrite generate_points. reflexivity. Qed.
  Lemma box_make_tris : forall mn mx : vec3 T, map idx (m_tris (b_mesh (box_make mn mx))) = box_tris.
  Proof. intros. unfold box_make. cbn [b_mesh]. rewrite gen_clean, generate_eq. reflexivity. Qed.
End Gen.

Lemma box_tris_closed : s_closed_surface box_tris.
Proof.
  split.
  - repeat (constructor; [vm_compute; intuition congruence|]). constructor.
  - intros i j H. vm_compute in H.
    repeat (destruct H as [H|H]; [injection H as <- <-; split; [discriminate|vm_compute; tauto]|]). contradiction.
Qed.

Local Open Scope R_scope.

(** *** enclose *)
Lemma enclose_fold : forall pts mn mx, let r := fold_left enclose_pt pts (mn, mx) : vec3 R * vec3 R in
  (vx (fst r) <= vx mn /\ vy (fst r) <= vy mn /\ vz (fst r) <= vz mn) /\
  (vx mx <= vx (snd r) /\ vy mx <= vy (snd r) /\ vz mx <= vz (snd r)) /\
  (forall p, In p pts -> s_in_box (fst r) (snd r) p) /\
  (forall a b, vx a <= vx mn -> vy a <= vy mn -> vz a <= vz mn -> vx mx <= vx b -> vy mx <= vy b -> vz mx <= vz b ->
     (forall p, In p pts -> s_in_box a b p) ->
     vx a <= vx (fst r) /\ vy a <= vy (fst r) /\ vz a <= vz (fst r) /\ vx (snd r) <= vx b /\ vy (snd r) <= vy b /\ vz (snd r) <= vz b).
Proof.
  induction pts as [|p pts IH]; intros mn mx; cbn [fold_left].
  - cbn [fst snd]. split; [lra|]. split; [lra|]. split; [intros ? []|]. intros; lra.
  - cbn [enclose_pt]. rewrite !nmin_R, !nmax_R.
    specialize (IH (V3 (Rmin (vx mn) (vx p)) (Rmin (vy mn) (vy p)) (Rmin (vz mn) (vz p)))
                   (V3 (Rmax (vx mx) (vx p)) (Rmax (vy mx) (vy p)) (Rmax (vz mx) (vz p)))).
    cbv zeta in *. destruct IH as [A [B [C D]]]. cbn [vx vy vz] in A, B.
    set (r := fold_left enclose_pt pts _) in *.
    pose proof (Rmin_l (vx mn) (vx p)). pose proof (Rmin_l (vy mn) (vy p)). pose proof (Rmin_l (vz mn) (vz p)).
    pose proof (Rmin_r (vx mn) (vx p)). pose proof (Rmin_r (vy mn) (vy p)). pose proof (Rmin_r (vz mn) (vz p)).
    pose proof (Rmax_l (vx mx) (vx p)). pose proof (Rmax_l (vy mx) (vy p)). pose proof (Rmax_l (vz mx) (vz p)).
    pose proof (Rmax_r (vx mx) (vx p)). pose proof (Rmax_r (vy mx) (vy p)). pose proof (Rmax_r (vz mx) (vz p)).
    split; [lra|]. split; [lra|]. split.
    + intros q [<-|Q]; auto. unfold s_in_box. lra.
    + intros a b A1 A2 A3 B1 B2 B3 P. destruct (P p (or_introl eq_refl)) as [P1 [P2 P3]].
      apply D; cbn [vx vy vz]; try (apply Rmin_glb; lra); try (apply Rmax_lub; lra).
      intros q Q. apply P. right; auto.
Qed.

(** affine functions on a box are bounded by their values at the corners *)
Lemma lin_le : forall lo hi x c k M, lo <= x <= hi -> c * lo + k <= M -> c * hi + k <= M -> c * x + k <= M.
Proof.
  intros. destruct (Rle_dec 0 c).
  - assert (c * x <= c * hi) by (apply Rmult_le_compat_l; lra). lra.
  - assert (c * x <= c * lo). { apply Ropp_le_cancel. rewrite <- !Ropp_mult_distr_l_reverse. apply Rmult_le_compat_l; lra. } lra.
Qed.
Lemma affine_le : forall mn mx q a b c k M, s_in_box mn mx q ->
  (forall p, In p (corners8 mn mx) -> a * vx p + b * vy p + c * vz p + k <= M) ->
  a * vx q + b * vy q + c * vz q + k <= M.
Proof.
  intros mn mx q a b c k M [X [Y Z]] H.
  assert (H0 := H _ (or_introl eq_refl)).
  assert (H1 := H _ (or_intror (or_introl eq_refl))).
  assert (H2 := H _ (or_intror (or_intror (or_introl eq_refl)))).
  assert (H3 := H _ (or_intror (or_intror (or_intror (or_introl eq_refl))))).
  assert (H4 := H _ (or_intror (or_intror (or_intror (or_intror (or_introl eq_refl)))))).
  assert (H5 := H _ (or_intror (or_intror (or_intror (or_intror (or_intror (or_introl eq_refl))))))).
  assert (H6 := H _ (or_intror (or_intror (or_intror (or_intror (or_intror (or_intror (or_introl eq_refl)))))))).
  assert (H7 := H _ (or_intror (or_intror (or_intror (or_intror (or_intror (or_intror (or_intror (or_introl eq_refl))))))))).
  clear H. cbn [vx vy vz] in *.
  assert (A : forall y z, (y = vy mn \/ y = vy mx) -> (z = vz mn \/ z = vz mx) -> a * vx q + (b * y + c * z + k) <= M).
  { intros y z [-> | ->] [-> | ->]; apply (lin_le _ _ _ _ _ _ X); lra. }
  assert (B : forall z, (z = vz mn \/ z = vz mx) -> b * vy q + (a * vx q + c * z + k) <= M).
  { intros z Hz. pose proof (A (vy mn) z (or_introl eq_refl) Hz). pose proof (A (vy mx) z (or_intror eq_refl) Hz).
    apply (lin_le _ _ _ _ _ _ Y); lra. }
  pose proof (B (vz mn) (or_introl eq_refl)). pose proof (B (vz mx) (or_intror eq_refl)).
  assert (c * vz q + (a * vx q + b * vy q + k) <= M) by (apply (lin_le _ _ _ _ _ _ Z); lra). lra.
Qed.
Lemma corners_hull : forall (t : trans3 R) mn mx lo hi q, s_in_box mn mx q ->
  (forall p, In p (corners8 mn mx) -> s_in_box lo hi (tapply t p)) -> s_in_box lo hi (tapply t q).
Proof.
  intros t mn mx lo hi q Q H. destruct t as [[xx xy xz yx yy yz zx zy zz] [tx ty tz]].
  assert (E : forall p, s_in_box lo hi (tapply (T3 (M3 xx xy xz yx yy yz zx zy zz) (V3 tx ty tz)) p) <->
    (xx * vx p + xy * vy p + xz * vz p + tx <= vx hi /\ yx * vx p + yy * vy p + yz * vz p + ty <= vy hi /\ zx * vx p + zy * vy p + zz * vz p + tz <= vz hi) /\
    (-xx * vx p + -xy * vy p + -xz * vz p + -tx <= - vx lo /\ -yx * vx p + -yy * vy p + -yz * vz p + -ty <= - vy lo /\ -zx * vx p + -zy * vy p + -zz * vz p + -tz <= - vz lo)).
  { intros p. unfold s_in_box. unmath. split; intros; lra. }
  rewrite E. repeat split; apply (affine_le mn mx q); auto; intros p P; apply H in P; apply E in P; tauto.
Qed.

Record box_inv (b : box R) : Prop := {
  bi_ord : s_ordered (b_min b) (b_max b);
  bi_in : forall p, In p (m_points (b_mesh b)) -> s_in_box (b_min b) (b_max b) p;
  bi_corners : forall p, In p (corners8 (b_min b) (b_max b)) -> In p (m_points (b_mesh b))
}.
Lemma corners_in : forall mn mx p, s_ordered mn mx -> In p (corners8 mn mx) -> s_in_box mn mx p.
Proof.
  intros mn mx p [A [B C]] H. unfold s_in_box.
  repeat (destruct H as [<-|H]; [cbn [vx vy vz]; lra|]). destruct H.
Qed.
Lemma make_inv : forall mn mx, s_ordered mn mx -> box_inv (box_make mn mx).
Proof.
  intros mn mx O. constructor; cbn [box_make b_min b_max]; auto.
  rewrite box_make_points. intros p. apply corners_in; auto.
Qed.

Lemma enclose_spec : forall (b o : box R) pose, box_inv b -> box_inv o ->
  let b' := box_enclose b o pose in
  box_inv b' /\
  (forall q, s_in_box (b_min b) (b_max b) q -> s_in_box (b_min b') (b_max b') q) /\
  (forall q, s_in_box (b_min o) (b_max o) q -> s_in_box (b_min b') (b_max b') (tapply pose q)) /\
  (forall lo hi,
     (forall q, s_in_box (b_min b) (b_max b) q -> s_in_box lo hi q) ->
     (forall q, s_in_box (b_min o) (b_max o) q -> s_in_box lo hi (tapply pose q)) ->
     forall q, s_in_box (b_min b') (b_max b') q -> s_in_box lo hi q).
Proof.
  intros b o pose [IB1 IB2 IB3] [IO1 IO2 IO3] b'. unfold b', box_enclose.
  pose proof (enclose_fold (m_points (getTransformed (b_mesh o) pose)) (b_min b) (b_max b)) as F. cbv zeta in F.
  destruct (fold_left enclose_pt _ _) as [mn mx]. cbn [fst snd] in F. destruct F as [F1 [F2 [F3 F4]]].
  cbn [b_min b_max b_mesh].
  assert (G1 : forall q, s_in_box (b_min b) (b_max b) q -> s_in_box mn mx q).
  { intros q. unfold s_in_box. lra. }
  assert (G2 : forall p, In p (m_points (b_mesh o)) -> s_in_box mn mx (tapply pose p)).
  { intros p P. apply F3. cbn [getTransformed m_points]. apply in_map. auto. }
  assert (ORD : s_ordered mn mx).
  { destruct IB1 as [? [? ?]]. unfold s_ordered. lra. }
  split; [|split; [|split]].
  - constructor; cbn [b_min b_max b_mesh]; auto.
    + intros p H. rewrite generate_points in H. apply in_app_or in H. destruct H as [H|H]; [apply G1, IB2, H|apply corners_in; auto].
    + intros p P. rewrite generate_points. apply in_or_app. right. auto.
  - exact G1.
  - intros q H. apply (corners_hull pose _ _ _ _ _ H). intros p P. apply G2, IO3, P.
  - intros lo hi H H0 q.
    destruct (H (b_min b)) as [? [? ?]]; [destruct IB1 as [? [? ?]]; unfold s_in_box; lra|].
    destruct (H (b_max b)) as [? [? ?]]; [destruct IB1 as [? [? ?]]; unfold s_in_box; lra|].
    destruct (F4 lo hi) as [? [? [? [? [? ?]]]]]; try lra.
    { intros p P. cbn [getTransformed m_points] in P. apply in_map_iff in P. destruct P as [p' [<- P]]. apply H0, IO2, P. }
    unfold s_in_box. lra.
Qed.

Lemma hist_inv : forall b : box R, box_hist s_ordered b -> box_inv b.
Proof. induction 1; [apply make_inv; auto|]. apply (enclose_spec b o pose); auto. Qed.

(** *** the surface of a box *)
Lemma in_triangle_perm : forall a b c p, in_triangle a b c p -> in_triangle b c a p /\ in_triangle b a c p.
Proof.
  intros a b c p [u [v [w [U [V [W [S ->]]]]]]]. split.
  - exists v, w, u. repeat split; auto; try lra. apply V3_eq; ring.
  - exists v, u, w. repeat split; auto; try lra. apply V3_eq; ring.
Qed.
(** a parallelogram is covered by its two triangles *)
Lemma parallelogram : forall (a b c d p : vec3 R) u v, 0 <= u <= 1 -> 0 <= v <= 1 ->
  d = V3 (vx b + vx c - vx a) (vy b + vy c - vy a) (vz b + vz c - vz a) ->
  p = V3 (vx a + u * (vx b - vx a) + v * (vx c - vx a)) (vy a + u * (vy b - vy a) + v * (vy c - vy a)) (vz a + u * (vz b - vz a) + v * (vz c - vz a)) ->
  in_triangle a b c p \/ in_triangle b c d p.
Proof.
  intros a b c d p u v U V -> ->. destruct (Rle_dec (u + v) 1).
  - left. exists (1 - u - v), u, v. repeat split; try lra. apply V3_eq; ring.
  - right. exists (1 - v), (1 - u), (u + v - 1). cbn [vx vy vz]. repeat split; try lra. apply V3_eq; ring.
Qed.

Definition on_boundary (mn mx p : vec3 R) : Prop := s_in_box mn mx p /\
  (vx p = vx mn \/ vx p = vx mx \/ vy p = vy mn \/ vy p = vy mx \/ vz p = vz mn \/ vz p = vz mx).

Lemma box_soup : forall mn mx : vec3 R, exists l, s_soup (corners8 mn mx) box_tris = Some l /\
  l = match corners8 mn mx with
      | [p0;p1;p2;p3;p4;p5;p6;p7] => [(p1,p0,p2);(p1,p2,p3);(p4,p5,p6);(p6,p5,p7);(p0,p4,p2);(p2,p4,p6);(p5,p1,p3);(p5,p3,p7);(p0,p1,p4);(p4,p1,p5);(p3,p2,p6);(p3,p6,p7)]
      | _ => []
      end.
Proof. intros. eexists. split; reflexivity. Qed.

Lemma unit_frac : forall lo hi x, lo < hi -> lo <= x <= hi -> 0 <= (x - lo)/(hi - lo) <= 1 /\ x = lo + (x - lo)/(hi - lo) * (hi - lo).
Proof.
  intros lo hi x L [A B]. split; [split|].
  - apply Rmult_le_pos; [lra|]. left. apply Rinv_0_lt_compat. lra.
  - apply Rmult_le_reg_r with (hi - lo); [lra|]. field_simplify; lra.
  - field. lra.
Qed.

Lemma box_surface : forall mn mx p l, vx mn < vx mx -> vy mn < vy mx -> vz mn < vz mx ->
  s_soup (corners8 mn mx) box_tris = Some l ->
  (on_boundary mn mx p <-> exists a b c, In (a, b, c) l /\ in_triangle a b c p).
Proof.
  intros mn mx p l X Y Z L. destruct (box_soup mn mx) as [l' [L' E]]. rewrite L in L'. injection L' as <-.
  cbn [corners8] in E. destruct mn as [x0 y0 z0], mx as [x1 y1 z1]. cbn [vx vy vz] in *. split.
  - intros [[HX [HY HZ]] F]. cbn [vx vy vz] in *. destruct p as [x y z]. cbn [vx vy vz] in *.
    destruct (unit_frac _ _ _ X HX) as [UX EX], (unit_frac _ _ _ Y HY) as [UY EY], (unit_frac _ _ _ Z HZ) as [UZ EZ].
    set (u := (x - x0)/(x1 - x0)) in *. set (v := (y - y0)/(y1 - y0)) in *. set (w := (z - z0)/(z1 - z0)) in *. clearbody u v w.
    destruct F as [F|[F|[F|[F|[F|F]]]]].
    + destruct (parallelogram (V3 x0 y0 z0) (V3 x0 y0 z1) (V3 x0 y1 z0) (V3 x0 y1 z1) (V3 x y z) w v) as [H|H]; auto;
        try (cbn [vx vy vz]; apply V3_eq; lra); rewrite E.
      * do 3 eexists. split; [do 4 right; left; reflexivity|]. apply H.
      * do 3 eexists. split; [do 5 right; left; reflexivity|]. apply in_triangle_perm. auto.
    + destruct (parallelogram (V3 x1 y0 z0) (V3 x1 y0 z1) (V3 x1 y1 z0) (V3 x1 y1 z1) (V3 x y z) w v) as [H|H]; auto;
        try (cbn [vx vy vz]; apply V3_eq; lra); rewrite E.
      * do 3 eexists. split; [do 6 right; left; reflexivity|]. apply in_triangle_perm. auto.
      * do 3 eexists. split; [do 7 right; left; reflexivity|]. auto.
    + destruct (parallelogram (V3 x0 y0 z0) (V3 x1 y0 z0) (V3 x0 y0 z1) (V3 x1 y0 z1) (V3 x y z) u w) as [H|H]; auto;
        try (cbn [vx vy vz]; apply V3_eq; lra); rewrite E.
      * do 3 eexists. split; [do 8 right; left; reflexivity|]. auto.
      * do 3 eexists. split; [do 9 right; left; reflexivity|]. apply in_triangle_perm. auto.
    + destruct (parallelogram (V3 x0 y1 z0) (V3 x1 y1 z0) (V3 x0 y1 z1) (V3 x1 y1 z1) (V3 x y z) u w) as [H|H]; auto;
        try (cbn [vx vy vz]; apply V3_eq; lra); rewrite E.
      * do 3 eexists. split; [do 10 right; left; reflexivity|]. apply in_triangle_perm. auto.
      * do 3 eexists. split; [do 11 right; left; reflexivity|]. auto.
    + destruct (parallelogram (V3 x0 y0 z0) (V3 x1 y0 z0) (V3 x0 y1 z0) (V3 x1 y1 z0) (V3 x y z) u v) as [H|H]; auto;
        try (cbn [vx vy vz]; apply V3_eq; lra); rewrite E.
      * do 3 eexists. split; [left; reflexivity|]. apply in_triangle_perm. auto.
      * do 3 eexists. split; [do 1 right; left; reflexivity|]. auto.
    + destruct (parallelogram (V3 x0 y0 z1) (V3 x1 y0 z1) (V3 x0 y1 z1) (V3 x1 y1 z1) (V3 x y z) u v) as [H|H]; auto;
        try (cbn [vx vy vz]; apply V3_eq; lra); rewrite E.
      * do 3 eexists. split; [do 2 right; left; reflexivity|]. auto.
      * do 3 eexists. split; [do 3 right; left; reflexivity|]. apply in_triangle_perm. auto.
  - intros [a [b [c [I [u [v [w [U [V [W [S P]]]]]]]]]]]. rewrite E in I. clear E L.
    assert (CV : forall lo hi a b c, lo <= a <= hi -> lo <= b <= hi -> lo <= c <= hi -> lo <= u*a + v*b + w*c <= hi).
    { intros lo hi a' b' c' HA HB HC.
      assert (u*lo <= u*a' <= u*hi) by (split; apply Rmult_le_compat_l; lra).
      assert (v*lo <= v*b' <= v*hi) by (split; apply Rmult_le_compat_l; lra).
      assert (w*lo <= w*c' <= w*hi) by (split; apply Rmult_le_compat_l; lra).
      replace lo with ((u+v+w)*lo) by (rewrite S; ring). replace hi with ((u+v+w)*hi) by (rewrite S; ring). lra. }
    assert (SAME : forall k, u*k + v*k + w*k = k) by (intros; replace k with ((u+v+w)*k) at 4 by (rewrite S; ring); ring).
    assert (IB : s_in_box (V3 x0 y0 z0) (V3 x1 y1 z1) p).
    { rewrite P. unfold s_in_box. cbn [vx vy vz].
      repeat (destruct I as [I|I]; [injection I as <- <- <-; cbn [vx vy vz]; (split; [|split]); apply CV; lra|]). destruct I. }
    split; auto. rewrite P. cbn [vx vy vz].
    repeat (destruct I as [I|I]; [injection I as <- <- <-; cbn [vx vy vz]; rewrite ?SAME; auto 7|]). destruct I.
Qed.

Lemma box_outward : forall mn mx l a b c q, s_soup (corners8 mn mx) box_tris = Some l -> In (a, b, c) l ->
  vx mn < vx q < vx mx -> vy mn < vy q < vy mx -> vz mn < vz q < vz mx -> s_behind a b c q.
Proof.
  intros mn mx l a b c q L I X Y Z. destruct (box_soup mn mx) as [l' [L' E]]. rewrite L in L'. injection L' as <-.
  cbn [corners8] in E. destruct mn as [x0 y0 z0], mx as [x1 y1 z1], q as [x y z]. cbn [vx vy vz] in *. rewrite E in I. clear E L.
  assert (PX : 0 < x1 - x0) by lra. assert (PY : 0 < y1 - y0) by lra. assert (PZ : 0 < z1 - z0) by lra.
  pose proof (Rmult_lt_0_compat _ _ PX PY) as XY. pose proof (Rmult_lt_0_compat _ _ PX PZ) as XZ. pose proof (Rmult_lt_0_compat _ _ PY PZ) as YZ.
  assert (X0 : 0 < x - x0) by lra. assert (X1 : 0 < x1 - x) by lra. assert (Y0 : 0 < y - y0) by lra.
  assert (Y1 : 0 < y1 - y) by lra. assert (Z0 : 0 < z - z0) by lra. assert (Z1 : 0 < z1 - z) by lra.
  pose proof (Rmult_lt_0_compat _ _ XY Z0). pose proof (Rmult_lt_0_compat _ _ XY Z1).
  pose proof (Rmult_lt_0_compat _ _ XZ Y0). pose proof (Rmult_lt_0_compat _ _ XZ Y1).
  pose proof (Rmult_lt_0_compat _ _ YZ X0). pose proof (Rmult_lt_0_compat _ _ YZ X1).
  unfold s_behind, s_diff.
  repeat (destruct I as [I|I]; [injection I as <- <- <-; unfold s_det; cbn [vx vy vz]; lra|]). destruct I.
Qed.

Lemma box_volume : forall mn mx l, s_soup (corners8 mn mx) box_tris = Some l ->
  s_volume6 l = 6 * ((vx mx - vx mn) * (vy mx - vy mn) * (vz mx - vz mn)).
Proof.
  intros mn mx l L. destruct (box_soup mn mx) as [l' [L' E]]. rewrite L in L'. injection L' as <-. rewrite E.
  cbn [corners8 s_volume6]. unfold s_det. cbn [vx vy vz]. ring.
Qed.

(** *** maximum radius of a box *)
Definition dominated (mn mx : vec3 R) : Prop :=
  (Rabs (vx mn) <= Rabs (vx mx) /\ Rabs (vy mn) <= Rabs (vy mx) /\ Rabs (vz mn) <= Rabs (vz mx)) \/
  (Rabs (vx mx) <= Rabs (vx mn) /\ Rabs (vy mx) <= Rabs (vy mn) /\ Rabs (vz mx) <= Rabs (vz mn)).
Lemma abs_sq : forall a b, Rabs a <= Rabs b <-> a * a <= b * b.
Proof.
  intros. split; intros H.
  - apply Rsqr_le_abs_1 in H. exact H.
  - apply Rsqr_le_abs_0. exact H.
Qed.
Lemma in_interval_sq : forall lo hi x, lo <= x <= hi -> x * x <= Rmax (lo * lo) (hi * hi).
Proof.
  intros lo hi x H. destruct (Rle_dec 0 x).
  - apply Rle_trans with (hi*hi); [nra|apply Rmax_r].
  - apply Rle_trans with (lo*lo); [nra|apply Rmax_l].
Qed.
Lemma box_radius : forall b : box R, s_ordered (b_min b) (b_max b) ->
  (exists q, s_in_box (b_min b) (b_max b) q /\ s_norm q = box_maxRadius b) /\
  ((forall q, s_in_box (b_min b) (b_max b) q -> s_norm q <= box_maxRadius b) <-> dominated (b_min b) (b_max b)).
Proof.
  intros [mn mx me] [O1 [O2 O3]]. cbn [b_min b_max] in *. unfold box_maxRadius. cbn [b_min b_max]. rewrite nmax_R.
  assert (VL : forall v : vec3 R, vlength v = s_norm v) by reflexivity. rewrite !VL.
  split.
  - destruct (Rle_dec (s_norm mn) (s_norm mx)).
    + exists mx. split; [unfold s_in_box; lra|]. rewrite Rmax_right; auto.
    + exists mn. split; [unfold s_in_box; lra|]. rewrite Rmax_left; [reflexivity|apply Rlt_le, Rnot_le_lt; auto].
  - assert (NM : forall a b : vec3 R, s_norm a <= s_norm b <-> s_norm2 a <= s_norm2 b).
    { intros a b. unfold s_norm, s_norm2. split; intros H; [|apply sqrt_le_1_alt; auto].
      apply sqrt_le_0; auto; apply norm2_nonneg. }
    unfold dominated. rewrite !abs_sq.
    destruct mn as [x0 y0 z0], mx as [x1 y1 z1]. cbn [vx vy vz] in *. split.
    + intros H.
      set (cx := if Rle_dec (x0*x0) (x1*x1) then x1 else x0). set (cy := if Rle_dec (y0*y0) (y1*y1) then y1 else y0).
      set (cz := if Rle_dec (z0*z0) (z1*z1) then z1 else z0).
      assert (IB : s_in_box (V3 x0 y0 z0) (V3 x1 y1 z1) (V3 cx cy cz)).
      { unfold s_in_box, cx, cy, cz. cbn [vx vy vz]. repeat destruct Rle_dec; lra. }
      specialize (H _ IB). destruct (Rle_dec (s_norm (V3 x0 y0 z0)) (s_norm (V3 x1 y1 z1))) as [C|C].
      * rewrite Rmax_right in H by auto. apply NM in H. unfold s_norm2, s_dot in H. cbn [vx vy vz] in H.
        left. unfold cx, cy, cz in H. repeat destruct Rle_dec; lra.
      * rewrite Rmax_left in H by (apply Rlt_le, Rnot_le_lt; auto). apply NM in H. unfold s_norm2, s_dot in H. cbn [vx vy vz] in H.
        right. unfold cx, cy, cz in H. repeat destruct Rle_dec; lra.
    + intros D q [Q1 [Q2 Q3]]. cbn [vx vy vz] in *.
      apply in_interval_sq in Q1, Q2, Q3.
      destruct D as [[D1 [D2 D3]]|[D1 [D2 D3]]].
      * apply Rle_trans with (s_norm (V3 x1 y1 z1)); [|apply Rmax_r]. apply NM.
        rewrite Rmax_right in Q1, Q2, Q3 by auto. unfold s_norm2, s_dot. cbn [vx vy vz]. lra.
      * apply Rle_trans with (s_norm (V3 x0 y0 z0)); [|apply Rmax_l]. apply NM.
        rewrite Rmax_left in Q1, Q2, Q3 by auto. unfold s_norm2, s_dot. cbn [vx vy vz]. lra.
Qed.
