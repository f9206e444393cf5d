(** Proofs about containment and sphere queries *)
From Coq Require Import ZArith NArith List Bool Lia Reals Lra Permutation.
From Verif Require Import Num MathTypes Outcome Mesh Box Spec P_Tac P_Math P_Mesh P_MeshGeo ShapeQuery SpecQuery.
Import ListNotations.
Local Open Scope R_scope.

Ltac unq := unfold s_orient, s_height, s_between, s_det, s_diff in *; cbn [vx vy vz] in *.
Lemma eps16_R : (eps16 : R) = 1 / 10 ^ 16.
Proof. unfold eps16, nlit. cbn [nofZ ndiv NumR]. f_equal. simpl. lra. Qed.
Lemma eps12_R : (eps12 : R) = 1 / 10 ^ 12.
Proof. unfold eps12, nlit. cbn [nofZ ndiv NumR]. f_equal. simpl. lra. Qed.
Lemma e16_pos : 0 < 1 / 10 ^ 16.
Proof. apply Rdiv_lt_0_compat; [lra|]. apply pow_lt. lra. Qed.

(** ** side products *)
Lemma sp_orient : forall p q a b : vec3 R, sideProduct (LS p q) (LS a b) = s_orient p q a b.
Proof. intros. unfold sideProduct, ls_u, ls_v, vdot, vcross, vsub. unq. unR. cbn [vx vy vz ls_a ls_b]. ring. Qed.
Lemma orient_plane1 : forall a b c x : vec3 R, s_orient x a b c = - s_height a b c x.
Proof. intros. unq. ring. Qed.
Lemma orient_plane2 : forall a b c x : vec3 R, s_orient a x b c = s_height a b c x.
Proof. intros. unq. ring. Qed.
Lemma orient_sum : forall p q a b c, s_orient p q a b + s_orient p q b c + s_orient p q c a = s_height a b c q - s_height a b c p.
Proof. intros. unq. ring. Qed.
Lemma orient_anti : forall p q a b, s_orient p q b a = - s_orient p q a b.
Proof. intros. unq. ring. Qed.
(** Cramer: the point where the line pq pierces the plane *)
Lemma cramer : forall p q a b c, let s1 := s_orient p q a b in let s2 := s_orient p q b c in let s3 := s_orient p q c a in
  let D := s_height a b c q - s_height a b c p in let h := s_height a b c p in
  s2 * vx a + s3 * vx b + s1 * vx c = D * vx p - h * (vx q - vx p) /\
  s2 * vy a + s3 * vy b + s1 * vy c = D * vy p - h * (vy q - vy p) /\
  s2 * vz a + s3 * vz b + s1 * vz c = D * vz p - h * (vz q - vz p).
Proof. intros. unfold s1, s2, s3, D, h. unq. repeat split; ring. Qed.
(** the converse: a point of the line with barycentric coordinates u, v, w *)
Lemma bary : forall p q a b c u v w t, u + v + w = 1 ->
  s_between p q t = V3 (u * vx a + v * vx b + w * vx c) (u * vy a + v * vy b + w * vy c) (u * vz a + v * vz b + w * vz c) ->
  let D := s_height a b c q - s_height a b c p in
  s_orient p q b c = u * D /\ s_orient p q c a = v * D /\ s_orient p q a b = w * D /\ - s_height a b c p = t * D.
Proof.
  intros p q a b c u v w t S E D. unfold s_between in E. injection E as EX EY EZ. unfold D.
  assert (W : w = 1 - u - v) by lra. subst w. clear S D.
  destruct p as [px py pz], q as [qx qy qz], a as [ax ay az], b as [bx by_ bz], c as [cx cy cz]. unq.
  assert (PX : px = u * ax + v * bx + (1 - u - v) * cx - t * (qx - px)) by lra.
  assert (PY : py = u * ay + v * by_ + (1 - u - v) * cy - t * (qy - py)) by lra.
  assert (PZ : pz = u * az + v * bz + (1 - u - v) * cz - t * (qz - pz)) by lra.
  set (dx := qx - px) in *. set (dy := qy - py) in *. set (dz := qz - pz) in *.
  replace qx with (px + dx) by (unfold dx; ring). replace qy with (py + dy) by (unfold dy; ring). replace qz with (pz + dz) by (unfold dz; ring).
  clearbody dx dy dz. subst px py pz. repeat split; ring.
Qed.
Lemma meets_iff : forall p q a b c,
  s_orient p q a b <> 0 -> s_orient p q b c <> 0 -> s_orient p q c a <> 0 ->
  (s_meets p q a b c <->
   ((0 < s_orient p q a b /\ 0 < s_orient p q b c /\ 0 < s_orient p q c a) \/ (s_orient p q a b < 0 /\ s_orient p q b c < 0 /\ s_orient p q c a < 0)) /\
   s_height a b c p * s_height a b c q <= 0).
Proof.
  intros p q a b c N1 N2 N3. pose proof (orient_sum p q a b c) as SUM. set (D := s_height a b c q - s_height a b c p) in *. split.
  - intros [t [T [u [v [w [U [V [W [S E]]]]]]]]]. destruct (bary p q a b c u v w t S E) as [A [B [C H]]]. fold D in A, B, C, H.
    assert (ND : D <> 0) by (intros Z; rewrite Z in *; lra). rewrite A, B, C in *. split.
    + assert (u <> 0) by (intros ->; lra). assert (v <> 0) by (intros ->; lra). assert (w <> 0) by (intros ->; lra).
      destruct (Rlt_le_dec D 0); [right|left]; repeat split; nra.
    + replace (s_height a b c q) with (D + s_height a b c p) by (unfold D; ring). replace (s_height a b c p) with (- (t * D)) by lra.
      assert (0 <= D * D) by nra. assert (0 <= t * (1 - t)) by nra. assert (0 <= t * (1 - t) * (D * D)) by (apply Rmult_le_pos; auto). lra.
  - intros [SG HH]. assert (ND : D <> 0) by (destruct SG as [[? [? ?]]|[? [? ?]]]; lra). destruct (cramer p q a b c) as [CX [CY CZ]]. fold D in CX, CY, CZ. set (h := s_height a b c p) in *.
    exists (- h / D). split.
    + assert (HQ : s_height a b c q = D + h) by (unfold D; ring). rewrite HQ in HH.
      assert (K : (- h / D) * (1 - - h / D) = - (h * (D + h)) / (D * D)) by (field; auto).
      assert (K2 : 0 <= (- h / D) * (1 - - h / D)).
      { rewrite K. apply Rmult_le_pos; [lra|]. left. apply Rinv_0_lt_compat. nra. }
      set (t := - h / D) in *. nra.
    + exists (s_orient p q b c / D), (s_orient p q c a / D), (s_orient p q a b / D).
      assert (POS : 0 < s_orient p q a b / D /\ 0 < s_orient p q b c / D /\ 0 < s_orient p q c a / D).
      { destruct SG as [[A [B C]]|[A [B C]]].
        - assert (0 < D) by lra. repeat split; apply Rdiv_lt_0_compat; auto.
        - assert (0 < - D) by lra. assert (X : forall s, s / D = (- s) / (- D)) by (intros; field; auto). rewrite !X.
          repeat split; apply Rdiv_lt_0_compat; lra. }
      destruct POS as [P1 [P2 P3]]. repeat split; try lra.
      * replace (s_orient p q b c / D + s_orient p q c a / D + s_orient p q a b / D) with ((s_orient p q a b + s_orient p q b c + s_orient p q c a) / D) by (field; auto).
        rewrite SUM. field; auto.
      * unfold s_between. f_equal.
        -- transitivity ((s_orient p q b c * vx a + s_orient p q c a * vx b + s_orient p q a b * vx c) / D); [rewrite CX|]; field; auto.
        -- transitivity ((s_orient p q b c * vy a + s_orient p q c a * vy b + s_orient p q a b * vy c) / D); [rewrite CY|]; field; auto.
        -- transitivity ((s_orient p q b c * vz a + s_orient p q c a * vz b + s_orient p q a b * vz c) / D); [rewrite CZ|]; field; auto.
Qed.
Lemma area_spec : forall a b c : vec3 R, triangleArea a b c = s_area a b c.
Proof.
  intros a b c. unfold triangleArea, s_area, vlength, vcross, vsub. unR. unspec. unfold s_diff. cbn [vx vy vz]. 
  match goal with |- 5 / 10 * sqrt ?x = sqrt ?y / 2 => replace x with y by ring end. field.
Qed.
Lemma area_rot : forall a b c, s_area a b c = s_area b c a.
Proof. intros. unfold s_area, s_dot, s_diff. cbn [vx vy vz]. f_equal. f_equal. ring. Qed.
Lemma area_swap : forall a b c, s_area a b c = s_area b a c.
Proof. intros. unfold s_area, s_dot, s_diff. cbn [vx vy vz]. f_equal. f_equal. ring. Qed.

(** ** one triangle in general position *)
Lemma sign_pos : forall e s, 0 < e -> e < s -> Rleb (- e) s = true /\ Rltb e s = true /\ Rleb s e = false /\ Rltb s (- e) = false.
Proof. intros. rewrite Rleb_true, Rltb_true, Rleb_false, Rltb_false. lra. Qed.
Lemma sign_neg : forall e s, 0 < e -> s < - e -> Rleb (- e) s = false /\ Rltb e s = false /\ Rleb s e = true /\ Rltb s (- e) = true.
Proof. intros. rewrite Rleb_true, Rltb_true, Rleb_false, Rltb_false. lra. Qed.
Lemma abs_cases : forall e s, e < Rabs s -> 0 < e -> e < s \/ s < - e.
Proof. intros e s H E. unfold Rabs in H. destruct (Rcase_abs s); lra. Qed.
Lemma tri_generic : forall pts (p q : vec3 R) t h v1 v2 v3,
  point_at pts (ti1 t) = Some v1 -> point_at pts (ti2 t) = Some v2 -> point_at pts (ti3 t) = Some v3 -> s_generic p q (v1, v2, v3) ->
  exists z, s_crossing p q (v1, v2, v3) z /\ contains_tri pts p q t h = Ret (Some (Hits (h_count h + z) (h_edge h) (h_vert h))).
Proof.
  intros pts p q t h v1 v2 v3 P1 P2 P3 [G1 [G2 [G3 [G4 G5]]]]. unfold contains_tri. rewrite P1, P2, P3. cbn [or_ub obind].
  rewrite !sp_orient. rewrite (orient_plane1 v1 v2 v3 q), (orient_plane2 v1 v2 v3 p). rewrite !area_spec.
  pose proof (meets_iff p q v1 v2 v3) as M. pose proof (orient_sum p q v1 v2 v3) as SUM. unfold s_crossing.
  unfold nlit in *. rewrite eps16_R, eps12_R. cbn [nltb nleb nopp nmul nabs nadd nsub NumR].
  replace (s_area v2 p v3) with (s_area p v2 v3) by apply area_swap. replace (s_area p v1 v3) with (s_area p v3 v1) by (symmetry; rewrite (area_swap p v1 v3); apply area_rot).
  pose proof e16_pos as E. set (e := 1 / 10 ^ 16) in *.
  set (s1 := s_orient p q v1 v2) in *. set (s2 := s_orient p q v2 v3) in *. set (s3 := s_orient p q v3 v1) in *.
  set (hp := s_height v1 v2 v3 p) in *. set (hq := s_height v1 v2 v3 q) in *.
  set (mt := s_meets p q v1 v2 v3) in *.
  assert (AR : Rltb (Rabs (s_area p v2 v3 + s_area p v3 v1 + s_area p v1 v2 - s_area v1 v2 v3)) (1 / 10 ^ 12) = false) by (apply Rltb_false; auto).
  rewrite AR. clear AR G5.
  assert (H0 : (h_count h + 0)%Z = h_count h) by lia.
  assert (HH : Hits (h_count h + 0) (h_edge h) (h_vert h) = h) by (rewrite H0; destruct h; reflexivity).
  clearbody e s1 s2 s3 hp hq mt.
  assert (X4 : (Rleb (- e) (- hq * hp) = true /\ hp * hq < 0) \/ (Rleb (- e) (- hq * hp) = false /\ 0 < hp * hq)).
  { destruct (abs_cases _ _ G4 E); [right; split; [apply Rleb_false|]; lra|left; split; [apply Rleb_true|]; lra]. }
  destruct (abs_cases _ _ G1 E) as [A1|A1]; [destruct (sign_pos e s1 E A1) as [W1 [W2 [W3 W4]]]|destruct (sign_neg e s1 E A1) as [W1 [W2 [W3 W4]]]]; rewrite W1, W2, W3, W4; clear W1 W2 W3 W4;
  (destruct (abs_cases _ _ G2 E) as [A2|A2]; [destruct (sign_pos e s2 E A2) as [W1 [W2 [W3 W4]]]|destruct (sign_neg e s2 E A2) as [W1 [W2 [W3 W4]]]]; rewrite W1, W2, W3, W4; clear W1 W2 W3 W4);
  (destruct (abs_cases _ _ G3 E) as [A3|A3]; [destruct (sign_pos e s3 E A3) as [W1 [W2 [W3 W4]]]|destruct (sign_neg e s3 E A3) as [W1 [W2 [W3 W4]]]]; rewrite W1, W2, W3, W4; clear W1 W2 W3 W4);
  (assert (N1 : s1 <> 0) by lra; assert (N2 : s2 <> 0) by lra; assert (N3 : s3 <> 0) by lra; specialize (M N1 N2 N3));
  cbn [andb negb orb Nat.ltb Nat.leb Nat.eqb cnt3 b2n b2z Nat.add Z.sub Z.add Z.opp Pos.succ];
  try (exists 0%Z; rewrite HH; split; [right; right; split; [|reflexivity]; rewrite M; intros [[?|?] ?]; lra|reflexivity]).
  - destruct X4 as [[-> S]|[-> S]].
    + exists 1%Z. split; [left; repeat split; [apply M; split; [left|]; lra|lra]|reflexivity].
    + exists 0%Z. rewrite HH. split; [right; right; split; [|reflexivity]; rewrite M; intros [_ ?]; lra|reflexivity].
  - destruct X4 as [[-> S]|[-> S]].
    + exists (-1)%Z. split; [right; left; repeat split; [apply M; split; [right|]; lra|lra]|reflexivity].
    + exists 0%Z. rewrite HH. split; [right; right; split; [|reflexivity]; rewrite M; intros [_ ?]; lra|reflexivity].
Qed.
(** the whole loop *)
Lemma loop_generic : forall pts (p q : vec3 R) ts l h, s_soup pts (map idx ts) = Some l -> (forall t, In t l -> s_generic p q t) ->
  exists zs, Forall2 (s_crossing p q) l zs /\ contains_loop pts p q ts h = Ret (Z.eqb (h_count h + s_zsum zs) 1).
Proof.
  induction ts as [|t ts IH]; intros l h S G.
  - injection S as <-. exists []. split; [constructor|]. cbn [contains_loop s_zsum fold_right]. f_equal.
    destruct (Z.ltb_spec (h_count h) 0), (Z.ltb_spec 1 (h_count h)), (Z.ltb_spec 0 (h_count h)), (Z.eqb_spec (h_count h + 0) 1); cbn; try reflexivity; lia.
  - change (map idx (t :: ts)) with ((ti1 t, ti2 t, ti3 t) :: map idx ts) in S. cbn [s_soup] in S.
    destruct (s_nth pts (N.to_nat (ti1 t))) as [a|] eqn:E1; [|discriminate]. destruct (s_nth pts (N.to_nat (ti2 t))) as [b|] eqn:E2; [|discriminate].
    destruct (s_nth pts (N.to_nat (ti3 t))) as [c|] eqn:E3; [|discriminate]. destruct (s_soup pts (map idx ts)) as [r|] eqn:E4; [|discriminate]. injection S as <-.
    rewrite s_nth_nth_error in E1, E2, E3. destruct (tri_generic pts p q t h a b c E1 E2 E3 (G _ (or_introl eq_refl))) as [z [Z R]].
    destruct (IH r (Hits (h_count h + z) (h_edge h) (h_vert h)) eq_refl) as [zs [F L]]; [intros; apply G; right; auto|].
    exists (z :: zs). split; [constructor; auto|]. cbn [contains_loop]. rewrite R. cbn [obind]. rewrite L. cbn [h_count s_zsum fold_right]. f_equal. f_equal. unfold s_zsum. lia.
Qed.

(** ** a point on a triangle *)
Lemma area_nonneg : forall a b c, 0 <= s_area a b c.
Proof. intros. unfold s_area. pose proof (sqrt_pos (s_dot (s_diff b a) (s_diff b a) * s_dot (s_diff c a) (s_diff c a) - s_dot (s_diff b a) (s_diff c a) ^ 2)). lra. Qed.
Lemma area_bary : forall a b c p u v w, 0 <= u -> u + v + w = 1 ->
  p = V3 (u * vx a + v * vx b + w * vx c) (u * vy a + v * vy b + w * vy c) (u * vz a + v * vz b + w * vz c) -> s_area p b c = u * s_area a b c.
Proof.
  intros a b c p u v w U S ->. unfold s_area. 
  match goal with |- sqrt ?x / 2 = u * (sqrt ?y / 2) => replace x with ((u * u) * y) end.
  - rewrite sqrt_mult_alt by nra. rewrite sqrt_square by auto. field.
  - replace w with (1 - u - v) by lra. unfold s_dot, s_diff. cbn [vx vy vz]. ring.
Qed.
Lemma area_in : forall a b c p, in_triangle a b c p -> s_area p b c + s_area p c a + s_area p a b = s_area a b c.
Proof.
  intros a b c p [u [v [w [U [V [W [S E]]]]]]].
  rewrite (area_bary a b c p u v w U S E).
  rewrite (area_bary b c a p v w u V ltac:(lra) ltac:(rewrite E; f_equal; ring)).
  rewrite (area_bary c a b p w u v W ltac:(lra) ltac:(rewrite E; f_equal; ring)).
  replace (s_area b c a) with (s_area a b c) by apply area_rot. replace (s_area c a b) with (s_area a b c) by (rewrite (area_rot a b c); apply area_rot).
  transitivity ((u + v + w) * s_area a b c); [ring|rewrite S; ring].
Qed.
Lemma tri_on : forall pts (p q : vec3 R) t h v1 v2 v3,
  point_at pts (ti1 t) = Some v1 -> point_at pts (ti2 t) = Some v2 -> point_at pts (ti3 t) = Some v3 -> in_triangle v1 v2 v3 p ->
  1 / 10 ^ 16 < Rabs (s_orient p q v1 v2) -> 1 / 10 ^ 16 < Rabs (s_orient p q v2 v3) -> 1 / 10 ^ 16 < Rabs (s_orient p q v3 v1) ->
  contains_tri pts p q t h = Ret None.
Proof.
  intros pts p q t h v1 v2 v3 P1 P2 P3 I G1 G2 G3. unfold contains_tri. rewrite P1, P2, P3. cbn [or_ub obind].
  rewrite !sp_orient, (orient_plane1 v1 v2 v3 q), (orient_plane2 v1 v2 v3 p), !area_spec.
  pose proof (area_in _ _ _ _ I) as AR. destruct I as [u [v [w [U [V [W [S E]]]]]]].
  destruct (bary p q v1 v2 v3 u v w 0 S) as [B1 [B2 [B3 B4]]]. { rewrite <- E. unfold s_between. destruct p as [px py pz]. cbn [vx vy vz]. f_equal; ring. }
  rewrite B1, B2, B3 in *. set (D := s_height v1 v2 v3 q - s_height v1 v2 v3 p) in *. replace (s_height v1 v2 v3 p) with 0 by lra.
  rewrite eps16_R, eps12_R. cbn [nltb nleb nopp nmul nabs nadd nsub NumR].
  replace (s_area v2 p v3) with (s_area p v2 v3) by apply area_swap. replace (s_area p v1 v3) with (s_area p v3 v1) by (symmetry; rewrite (area_swap p v1 v3); apply area_rot).
  replace (Rltb (Rabs (s_area p v2 v3 + s_area p v3 v1 + s_area p v1 v2 - s_area v1 v2 v3)) (1 / 10 ^ 12)) with true.
  2:{ symmetry. apply Rltb_true. rewrite AR, Rminus_diag_eq, Rabs_R0 by auto. apply Rdiv_lt_0_compat; [lra|apply pow_lt; lra]. }
  pose proof e16_pos as EP. set (e := 1 / 10 ^ 16) in *. clearbody e D.
  replace (Rleb (- e) (- s_height v1 v2 v3 q * 0)) with true by (symmetry; apply Rleb_true; lra).
  destruct (Rle_lt_dec 0 D) as [L|L].
  - assert (X : forall x, 0 <= x -> e < Rabs (x * D) -> Rleb (- e) (x * D) = true /\ Rltb e (x * D) = true /\ Rleb (x * D) e = false /\ Rltb (x * D) (- e) = false).
    { intros x HX HA. apply sign_pos; auto. rewrite Rabs_right in HA; auto. apply Rle_ge, Rmult_le_pos; auto. }
    destruct (X u U G2) as [-> [-> [-> ->]]]. destruct (X v V G3) as [-> [-> [-> ->]]]. destruct (X w W G1) as [-> [-> [-> ->]]]. reflexivity.
  - assert (X : forall x, 0 <= x -> e < Rabs (x * D) -> Rleb (- e) (x * D) = false /\ Rltb e (x * D) = false /\ Rleb (x * D) e = true /\ Rltb (x * D) (- e) = true).
    { intros x HX HA. apply sign_neg; auto. assert (x * D <= 0) by nra. rewrite Rabs_left1 in HA; lra. }
    destruct (X u U G2) as [-> [-> [-> ->]]]. destruct (X v V G3) as [-> [-> [-> ->]]]. destruct (X w W G1) as [-> [-> [-> ->]]]. reflexivity.
Qed.
(** no triangle with valid indices fails *)
Lemma tri_ret : forall (T : Type) (NT : Num T) pts (p q : vec3 T) t h v1 v2 v3,
  point_at pts (ti1 t) = Some v1 -> point_at pts (ti2 t) = Some v2 -> point_at pts (ti3 t) = Some v3 -> exists o, contains_tri pts p q t h = Ret o.
Proof.
  intros T NT pts p q t h v1 v2 v3 P1 P2 P3. unfold contains_tri. rewrite P1, P2, P3. cbn [or_ub obind].
  assert (X : forall (c : bool) (a b : outcome (option hits)), (exists o, a = Ret o) -> (exists o, b = Ret o) -> exists o, (if c then a else b) = Ret o) by (intros []; auto).
  apply X; [eauto|]. apply X; [apply X; eauto|]. apply X; [|eauto]. apply X; [|eauto]. apply X.
  - match goal with |- context [let (_, _) := ?x in _] => set (ii := x) end.
    assert (V : exists a b, point_at pts (fst ii) = Some a /\ point_at pts (snd ii) = Some b).
    { unfold ii. repeat match goal with |- context [if ?c then _ else _] => destruct c end; cbn [fst snd]; eauto. }
    destruct V as [a [b [A B]]]. destruct ii as [i1 i2]. cbn [fst snd] in *.
    destruct (N.ltb i2 i1); rewrite A, B; cbn [or_ub obind]; (apply X; [eauto|]; apply X; eauto).
  - apply X; [|apply X; eauto].
    match goal with |- context [or_ub (point_at pts ?x)] => set (i := x) end.
    assert (V : exists a, point_at pts i = Some a) by (unfold i; repeat match goal with |- context [if ?c then _ else _] => destruct c end; eauto).
    destruct V as [a ->]. cbn [or_ub obind]. apply X; [eauto|]. apply X; eauto.
Qed.
Lemma valid_lookup : forall (T : Type) (pts : list (vec3 T)) ts t, s_valid (length pts) (map idx ts) -> In t ts ->
  exists a b c, point_at pts (ti1 t) = Some a /\ point_at pts (ti2 t) = Some b /\ point_at pts (ti3 t) = Some c.
Proof.
  intros T pts ts t V I. destruct (V (ti1 t) (ti2 t) (ti3 t)) as [A [B C]]. { apply in_map_iff. exists t. auto. }
  unfold point_at. apply nth_error_Some in A, B, C.
  destruct (nth_error pts (N.to_nat (ti1 t))) as [a|]; [|contradiction]. destruct (nth_error pts (N.to_nat (ti2 t))) as [b|]; [|contradiction].
  destruct (nth_error pts (N.to_nat (ti3 t))) as [c|]; [|contradiction]. eauto 10.
Qed.
Lemma loop_ret : forall (T : Type) (NT : Num T) pts (p q : vec3 T) ts h, s_valid (length pts) (map idx ts) -> exists b, contains_loop pts p q ts h = Ret b.
Proof.
  induction ts as [|t ts IH]; intros h V; [eexists; reflexivity|]. cbn [contains_loop].
  destruct (valid_lookup _ pts (t :: ts) t V (or_introl eq_refl)) as [a [b [c [A [B C]]]]].
  destruct (tri_ret _ _ pts p q t h a b c A B C) as [o ->]. cbn [obind]. destruct o; eauto.
  apply IH. intros i j k H. apply V. right. auto.
Qed.
Lemma loop_on : forall (T : Type) (NT : Num T) pts (p q : vec3 T) ts h t, s_valid (length pts) (map idx ts) -> In t ts -> (forall h, contains_tri pts p q t h = Ret None) ->
  contains_loop pts p q ts h = Ret true.
Proof.
  induction ts as [|t' ts IH]; intros h t V I H; [destruct I|]. cbn [contains_loop].
  destruct (valid_lookup _ pts (t' :: ts) t' V (or_introl eq_refl)) as [a [b [c [A [B C]]]]]. destruct (tri_ret _ _ pts p q t' h a b c A B C) as [o E].
  destruct I as [-> |I]; [rewrite H; reflexivity|]. rewrite E. cbn [obind]. destruct o; [|reflexivity]. eapply IH; eauto. intros i j k Hi. apply V. right. auto.
Qed.
