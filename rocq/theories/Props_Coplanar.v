(** * C113: triangles in one plane with the line to the outside point *)
From Coq Require Import ZArith NArith List Bool Lia Reals Lra Psatz.
From Verif Require Import Num MathTypes Outcome Mesh Box Spec P_Tac P_Math P_Mesh P_MeshGeo P_Float Props_Mesh Props_Box Props_Height ShapeQuery SpecQuery P_Query P_Query2 P_Query3 P_Query4 Props_Query.
Import ListNotations.
Local Open Scope R_scope.

(** ** specification *)
Definition s_cross3 (a b : vec3 R) : vec3 R := V3 (vy a * vz b - vz a * vy b) (vz a * vx b - vx a * vz b) (vx a * vy b - vy a * vx b).
(** the line through p and q lies in the plane of the triangle, which has an area *)
Definition s_flat (p q : vec3 R) (t : triple) : Prop :=
  let '(a, b, c) := t in 0 < s_area a b c /\ s_height a b c p = 0 /\ s_height a b c q = 0.
(** the whole line through p and q (not only the segment) meets the triangle *)
Definition s_line_meets (p q : vec3 R) (t : triple) : Prop := let '(a, b, c) := t in exists k, in_triangle a b c (s_between p q k).
(** v is clear of the line through p and q: the distance times the length of pq *)
Definition s_off_line (p q v : vec3 R) : Prop := 2 / 10 ^ 16 <= s_norm (s_cross3 (s_diff q p) (s_diff v p)).
Definition s_beside (p q : vec3 R) (t : triple) : Prop :=
  s_flat p q t /\ ~ s_line_meets p q t /\ (s_off_line p q (fst (fst t)) \/ s_off_line p q (snd (fst t))).

(** ** geometry in the plane *)
Lemma par : forall d X n, s_dot d n = 0 -> s_dot X n = 0 -> let u := s_cross3 d X in
  s_dot n n * vx u = s_dot u n * vx n /\ s_dot n n * vy u = s_dot u n * vy n /\ s_dot n n * vz u = s_dot u n * vz n.
Proof.
  intros [dx dy dz] [x y z] [nx ny nz] D X u. unfold u, s_cross3, s_dot in *. cbn [vx vy vz] in *. split; [|split].
  - replace ((nx * nx + ny * ny + nz * nz) * (dy * z - dz * y)) with (((dy * z - dz * y) * nx + (dz * x - dx * z) * ny + (dx * y - dy * x) * nz) * nx
      + (dx * nx + dy * ny + dz * nz) * (ny * z - nz * y) - (x * nx + y * ny + z * nz) * (ny * dz - nz * dy)) by ring. rewrite D, X. ring.
  - replace ((nx * nx + ny * ny + nz * nz) * (dz * x - dx * z)) with (((dy * z - dz * y) * nx + (dz * x - dx * z) * ny + (dx * y - dy * x) * nz) * ny
      + (dx * nx + dy * ny + dz * nz) * (nz * x - nx * z) - (x * nx + y * ny + z * nz) * (nz * dx - nx * dz)) by ring. rewrite D, X. ring.
  - replace ((nx * nx + ny * ny + nz * nz) * (dx * y - dy * x)) with (((dy * z - dz * y) * nx + (dz * x - dx * z) * ny + (dx * y - dy * x) * nz) * nz
      + (dx * nx + dy * ny + dz * nz) * (nx * y - ny * x) - (x * nx + y * ny + z * nz) * (nx * dy - ny * dx)) by ring. rewrite D, X. ring.
Qed.
Definition nrm (a b c : vec3 R) : vec3 R := s_cross3 (s_diff b a) (s_diff c a).
(** signed distance from the line, up to a factor *)
Definition hgt (p q a b c x : vec3 R) : R := s_dot (s_cross3 (s_diff q p) (s_diff x p)) (nrm a b c).
Definition inp (p a b c x : vec3 R) : Prop := s_dot (s_diff x p) (nrm a b c) = 0.

Section Plane.
  Context (p q a b c : vec3 R).
  Notation n := (nrm a b c).
  Notation h := (hgt p q a b c).
  Context (NP : 0 < s_dot n n) (HP : s_height a b c p = 0) (HQ : s_height a b c q = 0) (PQ : p <> q).

  Lemma dn : s_dot (s_diff q p) n = 0.
  Proof. clear NP PQ. revert HP HQ. unfold nrm, s_cross3, s_dot. unq. intros. lra. Qed.
  Lemma in_a : inp p a b c a.
  Proof. clear NP PQ HQ. revert HP. unfold inp, nrm, s_cross3, s_dot. unq. intros. lra. Qed.
  Lemma in_b : inp p a b c b.
  Proof. clear NP PQ HQ. revert HP. unfold inp, nrm, s_cross3, s_dot. unq. intros. lra. Qed.
  Lemma in_c : inp p a b c c.
  Proof. clear NP PQ HQ. revert HP. unfold inp, nrm, s_cross3, s_dot. unq. intros. lra. Qed.
  (** the side of the line on which x lies, seen from y *)
  Lemma orient_h : forall x y, inp p a b c x -> s_dot n n * s_orient p q x y = h x * s_dot n (s_diff y p).
  Proof.
    intros x y X. destruct (par (s_diff q p) (s_diff x p) n dn X) as [A [B C]].
    assert (E : s_orient p q x y = vx (s_cross3 (s_diff q p) (s_diff x p)) * vx (s_diff y p) + vy (s_cross3 (s_diff q p) (s_diff x p)) * vy (s_diff y p) + vz (s_cross3 (s_diff q p) (s_diff x p)) * vz (s_diff y p)).
    { unfold s_orient, s_det, s_cross3. cbn [vx vy vz]. ring. }
    rewrite E. unfold hgt. set (u := s_cross3 (s_diff q p) (s_diff x p)) in *.
    transitivity (s_dot n n * vx u * vx (s_diff y p) + s_dot n n * vy u * vy (s_diff y p) + s_dot n n * vz u * vz (s_diff y p)); [ring|]. rewrite A, B, C. set (e := s_dot u n). clearbody e. unfold s_dot. ring.
  Qed.
  Lemma orient_flat : forall x y, inp p a b c x -> inp p a b c y -> s_orient p q x y = 0.
  Proof. intros x y X Y. pose proof (orient_h x y X) as E. unfold inp in Y. replace (s_dot n (s_diff y p)) with 0 in E by (rewrite <- Y; unfold s_dot; ring). nra. Qed.
  (** a point of the plane with signed distance zero is on the line *)
  Lemma on_line : forall x, inp p a b c x -> h x = 0 -> exists k, x = s_between p q k.
  Proof.
    intros x X H. destruct (par (s_diff q p) (s_diff x p) n dn X) as [A [B C]]. unfold hgt in H. rewrite H in *.
    assert (U : s_cross3 (s_diff q p) (s_diff x p) = V3 0 0 0).
    { destruct (s_cross3 (s_diff q p) (s_diff x p)) as [ux uy uz]. cbn [vx vy vz] in *. f_equal; nra. }
    pose proof (f_equal vx U) as U1. pose proof (f_equal vy U) as U2. pose proof (f_equal vz U) as U3. unfold s_cross3 in U1, U2, U3. cbn [vx vy vz] in U1, U2, U3. clear A B C H X HP HQ U.
    assert (DD : 0 < s_dot (s_diff q p) (s_diff q p)).
    { unfold s_dot. destruct p as [px py pz], q as [qx qy qz]. cbn [vx vy vz s_diff]. unfold s_diff. cbn [vx vy vz].
      pose proof (Rle_0_sqr (qx - px)) as S1. pose proof (Rle_0_sqr (qy - py)) as S2. pose proof (Rle_0_sqr (qz - pz)) as S3. unfold Rsqr in S1, S2, S3.
      destruct (Req_dec qx px) as [E1|E1]; [destruct (Req_dec qy py) as [E2|E2]; [destruct (Req_dec qz pz) as [E3|E3]; [exfalso; apply PQ; congruence|]|]|].
      - assert (0 < (qz - pz) * (qz - pz)) by (apply Rsqr_pos_lt; lra). lra.
      - assert (0 < (qy - py) * (qy - py)) by (apply Rsqr_pos_lt; lra). lra.
      - assert (0 < (qx - px) * (qx - px)) by (apply Rsqr_pos_lt; lra). lra. }
    exists (s_dot (s_diff x p) (s_diff q p) / s_dot (s_diff q p) (s_diff q p)). set (D := s_dot (s_diff q p) (s_diff q p)) in *. set (W := s_dot (s_diff x p) (s_diff q p)).
    assert (G : D * vx (s_diff x p) = W * vx (s_diff q p) /\ D * vy (s_diff x p) = W * vy (s_diff q p) /\ D * vz (s_diff x p) = W * vz (s_diff q p)).
    { unfold D, W, s_dot. set (dx := vx (s_diff q p)) in *. set (dy := vy (s_diff q p)) in *. set (dz := vz (s_diff q p)) in *.
      set (x1 := vx (s_diff x p)) in *. set (x2 := vy (s_diff x p)) in *. set (x3 := vz (s_diff x p)) in *. clearbody dx dy dz x1 x2 x3. split; [|split].
      - replace ((dx * dx + dy * dy + dz * dz) * x1) with ((x1 * dx + x2 * dy + x3 * dz) * dx + dz * (dz * x1 - dx * x3) - dy * (dx * x2 - dy * x1)) by ring. rewrite U2, U3. ring.
      - replace ((dx * dx + dy * dy + dz * dz) * x2) with ((x1 * dx + x2 * dy + x3 * dz) * dy + dx * (dx * x2 - dy * x1) - dz * (dy * x3 - dz * x2)) by ring. rewrite U1, U3. ring.
      - replace ((dx * dx + dy * dy + dz * dz) * x3) with ((x1 * dx + x2 * dy + x3 * dz) * dz + dy * (dy * x3 - dz * x2) - dx * (dz * x1 - dx * x3)) by ring. rewrite U1, U2. ring. }
    clearbody D W. destruct G as [G1 [G2 G3]]. destruct p as [px py pz], q as [qx qy qz], x as [x1 x2 x3]. unfold s_between, s_diff in *. cbn [vx vy vz] in *. clear - DD G1 G2 G3.
    f_equal; apply Rmult_eq_reg_l with D; try lra; field_simplify; lra.
  Qed.
  Lemma h_affine : forall u v w x y z, u + v + w = 1 -> h (V3 (u * vx x + v * vx y + w * vx z) (u * vy x + v * vy y + w * vy z) (u * vz x + v * vz y + w * vz z)) = u * h x + v * h y + w * h z.
  Proof. intros u v w x y z S. assert (W : w = 1 - u - v) by lra. subst w. unfold hgt, s_cross3, s_dot, s_diff. cbn [vx vy vz]. ring. Qed.
  Lemma h_line : forall k, h (s_between p q k) = 0.
  Proof. intros k. unfold hgt, s_cross3, s_dot, s_diff, s_between. cbn [vx vy vz]. ring. Qed.
  Lemma in_affine : forall u v w, u + v + w = 1 -> inp p a b c (V3 (u * vx a + v * vx b + w * vx c) (u * vy a + v * vy b + w * vy c) (u * vz a + v * vz b + w * vz c)).
  Proof.
    intros u v w S. pose proof in_a as A. pose proof in_b as B. pose proof in_c as C. unfold inp in *. assert (W : w = 1 - u - v) by lra. subst w.
    transitivity (u * s_dot (s_diff a p) n + v * s_dot (s_diff b p) n + (1 - u - v) * s_dot (s_diff c p) n); [|rewrite A, B, C; ring].
    set (m := n). unfold s_dot, s_diff. cbn [vx vy vz]. ring.
  Qed.
  (** the line meets the triangle iff the corners are not all strictly on one side *)
  Lemma meets_sides : s_line_meets p q (a, b, c) <-> h a * h b <= 0 \/ h b * h c <= 0 \/ h c * h a <= 0.
  Proof.
    split.
    - intros [k [u [v [w [U [V [W [S E]]]]]]]]. pose proof (h_line k) as L. rewrite E, h_affine in L by exact S.
      destruct (Rle_lt_dec (h a * h b) 0); auto. destruct (Rle_lt_dec (h b * h c) 0); auto. destruct (Rle_lt_dec (h c * h a) 0); auto. exfalso.
      set (x := h a) in *. set (y := h b) in *. set (z := h c) in *. clearbody x y z. clear - U V W S L r r0 r1.
      destruct (Rlt_le_dec 0 y) as [Y|Y].
      + assert (0 < x) by nra. assert (0 < z) by nra. destruct (Rlt_le_dec 0 u); [nra|]. destruct (Rlt_le_dec 0 v); [nra|]. assert (0 < w) by lra. nra.
      + assert (y <> 0) by (intros ->; lra). assert (x < 0) by nra. assert (z < 0) by nra. destruct (Rlt_le_dec 0 u); [nra|]. destruct (Rlt_le_dec 0 v); [nra|]. assert (0 < w) by lra. nra.
    - assert (Z : forall x y, x * y <= 0 -> exists s, 0 <= s <= 1 /\ (1 - s) * x + s * y = 0).
      { intros x y H. destruct (Req_dec x 0) as [->|X]; [exists 0; lra|]. assert (X2 : 0 < x * x) by (apply Rsqr_pos_lt; exact X). assert (D : x - y <> 0) by nra. exists (x / (x - y)). split.
        - destruct (Rlt_le_dec 0 x).
          + split; [apply Rmult_le_pos; [lra|apply Rlt_le, Rinv_0_lt_compat; nra]|]. apply Rmult_le_reg_r with (x - y); [nra|]. unfold Rdiv. rewrite Rmult_assoc, Rinv_l by exact D. nra.
          + replace (x / (x - y)) with ((- x) / (y - x)) by (field; lra). split; [apply Rmult_le_pos; [lra|apply Rlt_le, Rinv_0_lt_compat; nra]|].
            apply Rmult_le_reg_r with (y - x); [nra|]. unfold Rdiv. rewrite Rmult_assoc, Rinv_l by lra. nra.
        - field. exact D. }
      assert (K : forall u v w, 0 <= u -> 0 <= v -> 0 <= w -> u + v + w = 1 -> u * h a + v * h b + w * h c = 0 -> s_line_meets p q (a, b, c)).
      { intros u v w U V W S H. rewrite <- (h_affine u v w a b c S) in H. destruct (on_line _ (in_affine u v w S) H) as [k E]. exists k. exists u, v, w. rewrite <- E. auto. }
      intros [H|[H|H]]; destruct (Z _ _ H) as [s [B E]].
      + apply (K (1 - s) s 0); lra.
      + apply (K 0 (1 - s) s); lra.
      + apply (K s 0 (1 - s)); lra.
  Qed.
End Plane.
Lemma area_normal : forall a b c, 0 < s_area a b c -> 0 < s_dot (nrm a b c) (nrm a b c).
Proof.
  intros a b c A. unfold s_area in A. destruct (Rlt_le_dec 0 (s_dot (nrm a b c) (nrm a b c))) as [H|H]; [exact H|exfalso].
  assert (E : s_dot (s_diff b a) (s_diff b a) * s_dot (s_diff c a) (s_diff c a) - s_dot (s_diff b a) (s_diff c a) ^ 2 = s_dot (nrm a b c) (nrm a b c)).
  { unfold nrm, s_cross3. set (u := s_diff b a). set (v := s_diff c a). unfold s_dot. cbn [vx vy vz]. ring. }
  cbv zeta in A. rewrite E, sqrt_neg_0 in A by exact H. lra.
Qed.

(** ** compute2DIntersection *)
Definition unit3 (i : nat) : vec3 R := match i with O => V3 1 0 0 | S O => V3 0 1 0 | _ => V3 0 0 1 end.
Definition up (c : vec3 R) (i : nat) : vec3 R := p3_moved c i.
Section Comp.
  Context (p q a b c : vec3 R).
  Notation n := (nrm a b c).
  Notation h := (hgt p q a b c).
  Context (NP : 0 < s_dot n n) (HP : s_height a b c p = 0) (HQ : s_height a b c q = 0) (PQ : p <> q).
  Definition fac (i : nat) : R := vget n i / s_dot n n.

  Lemma up_dot : forall i, (i < 3)%nat -> s_dot n (s_diff (up c i) p) = vget n i.
  Proof.
    intros i I. assert (C : s_dot n (s_diff c p) = 0) by (pose proof (in_c p a b c HP) as C; unfold inp in C; rewrite <- C; unfold s_dot; ring).
    destruct i as [|[|[|i]]]; [| | |lia]; unfold up, p3_moved; cbn [vset vget]; unfold s_dot, s_diff in *; cbn [vx vy vz nadd n1 nofZ NumR] in *; lra.
  Qed.
  Lemma orient_up1 : forall x i, (i < 3)%nat -> inp p a b c x -> s_orient p q x (up c i) = h x * fac i.
  Proof. intros x i I X. pose proof (orient_h p q a b c HP HQ x (up c i) X) as E. rewrite up_dot in E by exact I. unfold fac. apply Rmult_eq_reg_l with (s_dot n n); [|lra]. rewrite E. field. lra. Qed.
  Lemma orient_up2 : forall x i, (i < 3)%nat -> inp p a b c x -> s_orient p q (up c i) x = - (h x * fac i).
  Proof. intros x i I X. rewrite orient_anti, orient_up1; auto. Qed.
  Lemma chosen : exists i, (i < 3)%nat /\ choose_p3 a b c (LS p q) = up c i /\ ((s_off_line p q a \/ s_off_line p q b) -> fac i <> 0).
  Proof.
    pose proof (in_a p a b c HP) as IA. pose proof (in_b p a b c HP) as IB.
    assert (B : forall i, (i < 3)%nat -> p3_breaks a b (LS p q) (up c i) = true <-> 1 / 10 ^ 16 <= Rabs (h b * fac i) \/ 1 / 10 ^ 16 <= Rabs (h a * fac i)).
    { intros i I. unfold p3_breaks. rewrite !sp_orient, orient_up1, orient_up2, eps16_R by auto. cbn [nleb nabs NumR]. rewrite Rabs_Ropp, orb_true_iff, !Rleb_true. reflexivity. }
    assert (NZ : forall i, (i < 3)%nat -> p3_breaks a b (LS p q) (up c i) = true -> fac i <> 0).
    { intros i I H Z. apply B in H; auto. rewrite Z, !Rmult_0_r, Rabs_R0 in H. pose proof e16_pos. lra. }
    unfold choose_p3. fold (up c 0) (up c 1) (up c 2).
    destruct (p3_breaks a b (LS p q) (up c 0)) eqn:B0; [exists 0%nat; split; [lia|]; split; [reflexivity|]; intros _; apply NZ; auto|].
    destruct (p3_breaks a b (LS p q) (up c 1)) eqn:B1; [exists 1%nat; split; [lia|]; split; [reflexivity|]; intros _; apply NZ; auto|].
    exists 2%nat. split; [lia|]. split; [reflexivity|]. intros O Z.
    assert (NB0 : ~ (1 / 10 ^ 16 <= Rabs (h b * fac 0) \/ 1 / 10 ^ 16 <= Rabs (h a * fac 0))) by (rewrite <- B by lia; rewrite B0; discriminate).
    assert (NB1 : ~ (1 / 10 ^ 16 <= Rabs (h b * fac 1) \/ 1 / 10 ^ 16 <= Rabs (h a * fac 1))) by (rewrite <- B by lia; rewrite B1; discriminate).
    assert (K : forall x, inp p a b c x -> s_off_line p q x -> 1 / 10 ^ 16 <= Rabs (h x * fac 0) \/ 1 / 10 ^ 16 <= Rabs (h x * fac 1)).
    { intros x X OX. destruct (Rle_lt_dec (1 / 10 ^ 16) (Rabs (h x * fac 0))) as [?|L0]; auto. destruct (Rle_lt_dec (1 / 10 ^ 16) (Rabs (h x * fac 1))) as [?|L1]; auto. exfalso.
      destruct (par (s_diff q p) (s_diff x p) n (dn p q a b c HP HQ) X) as [P1 [P2 P3]]. fold (h x) in P1, P2, P3. unfold s_off_line in OX. set (u := s_cross3 (s_diff q p) (s_diff x p)) in *.
      assert (U1 : vx u = h x * fac 0) by (unfold fac; cbn [vget]; apply Rmult_eq_reg_l with (s_dot n n); [|lra]; rewrite P1; field; lra).
      assert (U2 : vy u = h x * fac 1) by (unfold fac; cbn [vget]; apply Rmult_eq_reg_l with (s_dot n n); [|lra]; rewrite P2; field; lra).
      assert (U3 : vz u = h x * fac 2) by (unfold fac; cbn [vget]; apply Rmult_eq_reg_l with (s_dot n n); [|lra]; rewrite P3; field; lra).
      rewrite Z, Rmult_0_r in U3. pose proof e16_pos as EP. set (e := 1 / 10 ^ 16) in *. replace (2 / 10 ^ 16) with (2 * e) in OX by (unfold e; field).
      unfold s_norm, s_dot in OX. rewrite U1, U2, U3 in OX. set (y := h x * fac 0) in *. set (z := h x * fac 1) in *. clearbody e y z. clear - OX L0 L1 EP.
      assert (y * y < e * e) by (rewrite <- (Rabs_pos_eq (y * y)), Rabs_mult by nra; pose proof (Rabs_pos y); nra).
      assert (z * z < e * e) by (rewrite <- (Rabs_pos_eq (z * z)), Rabs_mult by nra; pose proof (Rabs_pos z); nra).
      assert (S : sqrt (y * y + z * z + 0 * 0) < 2 * e) by (rewrite <- (sqrt_square (2 * e)) by lra; apply sqrt_lt_1_alt; nra). lra. }
    destruct O as [O|O]; [destruct (K a IA O); tauto|destruct (K b IB O); tauto].
  Qed.
  Lemma ls_flat : forall x y i, (i < 3)%nat -> inp p a b c x -> inp p a b c y -> line_ls_intersection (LS p q) (LS x y) (up c i) = Rleb 0 (- (h x * h y) * (fac i * fac i)).
  Proof.
    intros x y i I X Y. unfold line_ls_intersection. cbn [ls_a ls_b]. rewrite !sp_orient, (orient_flat p q a b c NP HP HQ x y X Y), orient_up1, orient_up2 by auto.
    cbn [neqb nleb nmul n0 nofZ NumR]. replace (Reqb 0 0) with true by (symmetry; apply Reqb_true; reflexivity). cbn [negb]. f_equal. ring.
  Qed.
  Lemma comp_iff : forall i, (i < 3)%nat -> choose_p3 a b c (LS p q) = up c i ->
    (compute2D a b c (LS p q) = true <-> fac i = 0 \/ h a * h b <= 0 \/ h b * h c <= 0 \/ h c * h a <= 0).
  Proof.
    intros i I E. pose proof (in_a p a b c HP) as IA. pose proof (in_b p a b c HP) as IB. pose proof (in_c p a b c HP) as IC.
    assert (G : forall x y, 0 <= - (h x * h y) * (fac i * fac i) <-> fac i = 0 \/ h x * h y <= 0).
    { intros x y. set (k := fac i). set (z := h x * h y). clearbody k z. clear. split; [|intros [->|H]; nra]. intros H. destruct (Req_dec k 0) as [Z|Z]; auto. right.
      assert (0 < k * k) by (apply Rsqr_pos_lt; exact Z). nra. }
    unfold compute2D. rewrite E. cbn [existsb Nat.add Nat.modulo Nat.divmod snd Nat.sub fst tget]. cbn [tget].
    rewrite !sp_orient, !orient_up1, !orient_up2, !(ls_flat _ _ i I) by auto. cbn [nleb nmul n0 nofZ NumR].
    replace (h b * fac i * - (h a * fac i)) with (- (h a * h b) * (fac i * fac i)) by ring. replace (h c * fac i * - (h b * fac i)) with (- (h b * h c) * (fac i * fac i)) by ring.
    replace (h a * fac i * - (h c * fac i)) with (- (h c * h a) * (fac i * fac i)) by ring.
    rewrite !orb_true_iff, !andb_true_iff, !orb_true_iff, !Rleb_true, !G. intuition discriminate.
  Qed.
  Lemma comp_meets : s_line_meets p q (a, b, c) -> compute2D a b c (LS p q) = true.
  Proof. intros M. destruct chosen as [i [I [E _]]]. apply (comp_iff i I E). right. apply (meets_sides p q a b c NP HP HQ PQ) in M. exact M. Qed.
  Lemma comp_misses : ~ s_line_meets p q (a, b, c) -> s_off_line p q a \/ s_off_line p q b -> compute2D a b c (LS p q) = false.
  Proof.
    intros M O. destruct chosen as [i [I [E F]]]. destruct (compute2D a b c (LS p q)) eqn:C; [exfalso|reflexivity]. apply (comp_iff i I E) in C as [C|C]; [exact (F O C)|].
    apply M. apply (meets_sides p q a b c NP HP HQ PQ). exact C.
  Qed.
End Comp.
Lemma tri_flat : forall pts (p q : vec3 R) t h a b c, point_at pts (ti1 t) = Some a -> point_at pts (ti2 t) = Some b -> point_at pts (ti3 t) = Some c ->
  s_flat p q (a, b, c) -> contains_tri pts p q t h = if compute2D a b c (LS p q) then Ret None else Ret (Some h).
Proof.
  intros pts p q t h a b c P1 P2 P3 [A [HP HQ]]. apply area_normal in A. pose proof (in_a p a b c HP) as IA. pose proof (in_b p a b c HP) as IB. pose proof (in_c p a b c HP) as IC.
  unfold contains_tri. rewrite P1, P2, P3. cbn [or_ub obind]. rewrite !sp_orient, !(orient_flat p q a b c A HP HQ) by assumption.
  rewrite eps16_R. cbn [nleb nltb nopp NumR]. pose proof e16_pos as E. set (e := 1 / 10 ^ 16) in *.
  assert (L1 : Rleb (- e) 0 = true) by (apply Rleb_true; lra). assert (L2 : Rleb 0 e = true) by (apply Rleb_true; lra). rewrite L1, L2. reflexivity.
Qed.

Lemma lookup : forall (m : mesh R) l a b c, soup_of m = Some l -> In (a, b, c) l ->
  exists t, In t (m_tris m) /\ point_at (m_points m) (ti1 t) = Some a /\ point_at (m_points m) (ti2 t) = Some b /\ point_at (m_points m) (ti3 t) = Some c.
Proof.
  intros m l a b c S I. unfold soup_of in S. revert l S I. generalize (m_tris m). induction l as [|t ts IH]; intros l S I; [injection S as <-; destruct I|].
  change (map idx (t :: ts)) with ((ti1 t, ti2 t, ti3 t) :: map idx ts) in S. cbn [s_soup] in S. rewrite !s_nth_nth_error in S. unfold point_at in *.
  destruct (nth_error (m_points m) (N.to_nat (ti1 t))) eqn:N1; [|discriminate]. destruct (nth_error (m_points m) (N.to_nat (ti2 t))) eqn:N2; [|discriminate].
  destruct (nth_error (m_points m) (N.to_nat (ti3 t))) eqn:N3; [|discriminate]. destruct (s_soup (m_points m) (map idx ts)) as [r|] eqn:N4; [|discriminate].
  injection S as <-. destruct I as [I|I]; [injection I as -> -> ->; exists t; cbn; auto|]. destruct (IH r eq_refl I) as [t' [Q1 Q2]]. exists t'. cbn. auto.
Qed.
(** the outside point is never the query point *)
Lemma out_ne : forall rad p, 0 < rad -> s_norm p <= rad -> p <> s_outside rad.
Proof.
  intros rad p R N ->. unfold s_norm, s_outside, s_dot in N. cbn [vx vy vz] in N. replace (11 / 10 * rad * (11 / 10 * rad) + 0 * 0 + 0 * 0) with ((11 / 10 * rad) * (11 / 10 * rad)) in N by ring. rewrite sqrt_square in N by lra. lra.
Qed.
Lemma flat_rad : forall (m : mesh R) l rad p a b c, soup_of m = Some l -> s_max_radius (m_points m) rad -> In (a, b, c) l -> s_flat p (s_outside rad) (a, b, c) -> 0 < rad.
Proof.
  intros m l rad p a b c S [R0 [RB _]] I [A _]. destruct (Req_dec rad 0) as [Z|Z]; [|lra]. exfalso. destruct (lookup m l a b c S I) as [t [_ [E1 [E2 E3]]]].
  assert (O : forall v i, point_at (m_points m) i = Some v -> v = V3 0 0 0).
  { intros v i E. unfold point_at in E. apply nth_error_In in E. pose proof (RB v E) as B. rewrite Z in B. unfold s_norm in B. destruct v as [x y z]. unfold s_dot in B. cbn [vx vy vz] in B.
    pose proof (sqrt_pos (x * x + y * y + z * z)). assert (Q : x * x + y * y + z * z = 0) by (apply sqrt_eq_0; nra). f_equal; nra. }
  apply O in E1, E2, E3. subst. unfold s_area, s_dot, s_diff in A. cbn [vx vy vz] in A. match type of A with 0 < sqrt ?x / 2 => replace x with 0 in A by ring end. rewrite sqrt_0 in A. lra.
Qed.
(** a triangle that lies in a plane with the query point and the outside point decides alone: if the line through the two points meets it
    anywhere, even beyond the query point, contains() is true, whatever the rest of the mesh *)
Theorem C113_accept : forall (m : mesh R) ops l rad p t, mesh_run mesh_new ops = Ret m -> soup_of m = Some l -> s_max_radius (m_points m) rad -> s_norm p <= rad ->
  In t l -> s_flat p (s_outside rad) t -> s_line_meets p (s_outside rad) t -> mesh_contains m p = Ret true.
Proof.
  intros m ops l rad p [[a b] c] RUN S MR NP I F M. pose proof (flat_rad m l rad p a b c S MR I F) as RP. rewrite (contains_R m ops rad p RUN MR). destruct Rlt_dec; [lra|].
  destruct (lookup m l a b c S I) as [t [IT [E1 [E2 E3]]]]. apply (loop_on _ _ _ _ _ _ _ t); auto; [apply soup_valid; eauto|].
  intros h. rewrite (tri_flat _ _ _ _ _ a b c E1 E2 E3 F). destruct F as [A [HP HQ]]. rewrite (comp_meets p (s_outside rad) a b c (area_normal _ _ _ A) HP HQ (out_ne rad p RP NP) M). reflexivity.
Qed.
(** in particular every point of such a triangle is contained *)
Theorem C113_on_triangle : forall (m : mesh R) ops l rad p a b c, mesh_run mesh_new ops = Ret m -> soup_of m = Some l -> s_max_radius (m_points m) rad ->
  In (a, b, c) l -> s_flat p (s_outside rad) (a, b, c) -> in_triangle a b c p -> mesh_contains m p = Ret true.
Proof.
  intros m ops l rad p a b c RUN S MR I F T. apply (C113_accept m ops l rad p (a, b, c)); auto.
  - destruct (C16_radius m ops RUN) as [_ [A _]]. destruct (max_radius_get m ops rad RUN MR) as [E1 _]. specialize (A l a b c p S I T). rewrite E1 in A. exact A.
  - exists 0. replace (s_between p (s_outside rad) 0) with p; [exact T|]. destruct p as [x y z]. unfold s_between. cbn [vx vy vz]. f_equal; ring.
Qed.
Lemma loop_beside : forall pts (p q : vec3 R) ts l h, p <> q -> s_soup pts (map idx ts) = Some l -> (forall t, In t l -> s_generic p q t \/ s_beside p q t) ->
  exists zs, Forall2 (s_crossing p q) l zs /\ contains_loop pts p q ts h = Ret (Z.eqb (h_count h + s_zsum zs) 1).
Proof.
  intros pts p q ts. induction ts as [|t ts IH]; intros l h PQ S G.
  - injection S as <-. exists []. split; [constructor|]. cbn [contains_loop s_zsum fold_right]. f_equal.
    destruct (Z.ltb_spec (h_count h) 0), (Z.ltb_spec 1 (h_count h)), (Z.ltb_spec 0 (h_count h)), (Z.eqb_spec (h_count h + 0) 1); cbn; try reflexivity; lia.
  - change (map idx (t :: ts)) with ((ti1 t, ti2 t, ti3 t) :: map idx ts) in S. cbn [s_soup] in S.
    destruct (s_nth pts (N.to_nat (ti1 t))) as [a|] eqn:E1; [|discriminate]. destruct (s_nth pts (N.to_nat (ti2 t))) as [b|] eqn:E2; [|discriminate].
    destruct (s_nth pts (N.to_nat (ti3 t))) as [c|] eqn:E3; [|discriminate]. destruct (s_soup pts (map idx ts)) as [r|] eqn:E4; [|discriminate]. injection S as <-.
    rewrite s_nth_nth_error in E1, E2, E3. destruct (G _ (or_introl eq_refl)) as [GT|[F [M O]]].
    + destruct (tri_generic pts p q t h a b c E1 E2 E3 GT) as [z [Z R]].
      destruct (IH r (Hits (h_count h + z) (h_edge h) (h_vert h)) PQ eq_refl) as [zs [FZ L]]; [intros; apply G; right; auto|].
      exists (z :: zs). split; [constructor; auto|]. cbn [contains_loop]. rewrite R. cbn [obind]. rewrite L. cbn [h_count s_zsum fold_right]. f_equal. f_equal. unfold s_zsum. lia.
    + destruct (IH r h PQ eq_refl) as [zs [FZ L]]; [intros; apply G; right; auto|]. exists (0%Z :: zs). split.
      * constructor; auto. right. right. split; auto. intros [k [_ K]]. apply M. exists k. exact K.
      * cbn [contains_loop]. rewrite (tri_flat pts p q t h a b c E1 E2 E3 F). destruct F as [A [HP HQ]]. cbn [fst snd] in O.
        rewrite (comp_misses p q a b c (area_normal _ _ _ A) HP HQ PQ M O). cbn [obind]. rewrite L. reflexivity.
Qed.
(** and a triangle in that plane that the line passes by does not matter: with the other triangles in general position the crossings decide *)
Theorem C113_general : forall (m : mesh R) ops l rad p, mesh_run mesh_new ops = Ret m -> soup_of m = Some l -> s_max_radius (m_points m) rad ->
  s_norm p <= rad -> 0 < rad -> (forall t, In t l -> s_generic p (s_outside rad) t \/ s_beside p (s_outside rad) t) ->
  exists zs, Forall2 (s_crossing p (s_outside rad)) l zs /\ mesh_contains m p = Ret (Z.eqb (s_zsum zs) 1).
Proof.
  intros m ops l rad p RUN S MR NP RP G. rewrite (contains_R m ops rad p RUN MR). destruct Rlt_dec; [lra|].
  destruct (loop_beside (m_points m) p (s_outside rad) (m_tris m) l (Hits 0 (fun _ _ => 0%Z) (fun _ => 0%Z)) (out_ne rad p RP NP) S G) as [zs [F E]]. exists zs. split; auto.
Qed.
(** so a point outside is accepted when the plane of a face contains the outside point: a triangle in the plane z = 0 (and a free point that sets the radius) *)
Definition flat_ops : list (mesh_op R) := [OAddPoint (V3 (-1) (-1) 0); OAddPoint (V3 1 (-1) 0); OAddPoint (V3 1 1 0); OAddPoint (V3 0 0 3); OAddTriangle 0 1 2].
Definition flat_soup : list triple := [(V3 (-1) (-1) 0, V3 1 (-1) 0, V3 1 1 0)].
Lemma flat_mesh : exists m, mesh_run mesh_new flat_ops = Ret m /\ soup_of m = Some flat_soup /\ s_max_radius (m_points m) 3.
Proof.
  eexists. split; [reflexivity|]. split; [reflexivity|]. cbn. split; [lra|]. split.
  - intros v H. apply norm_sq; [lra|]. unfold s_norm2. destruct H as [<-|[<-|[<-|[<-|[]]]]]; tetn; lra.
  - right. exists (V3 0 0 3). split; [cbn; tauto|]. unfold s_norm. replace (s_dot (V3 0 0 3) (V3 0 0 3)) with (3 * 3) by (tetn; ring). apply sqrt_square. lra.
Qed.
Lemma flat_area : 0 < s_area (V3 (-1) (-1) 0) (V3 1 (-1) 0) (V3 1 1 0).
Proof. unfold s_area. tetn. match goal with |- 0 < sqrt ?x / 2 => replace x with (4 * 4) by ring end. rewrite sqrt_square by lra. lra. Qed.
Theorem C113_outside_accepted : exists (m : mesh R) p, mesh_run mesh_new flat_ops = Ret m /\ (forall v, In v (m_points m) -> vx p < vx v) /\ mesh_contains m p = Ret true.
Proof.
  destruct flat_mesh as [m [RUN [S MR]]]. exists m, (V3 (-2) 0 0). split; [exact RUN|]. split.
  - injection RUN as <-. cbn. intros v H. destruct H as [<-|[<-|[<-|[<-|[]]]]]; cbn [vx]; lra.
  - apply (C113_accept m flat_ops flat_soup 3 _ (V3 (-1) (-1) 0, V3 1 (-1) 0, V3 1 1 0) RUN S MR).
    + apply norm_sq; [lra|]. unfold s_norm2. tetn. lra.
    + left. reflexivity.
    + split; [exact flat_area|]. split; tetn; lra.
    + exists (30 / 53). exists 0, (1 / 2), (1 / 2). repeat split; try lra. unfold s_between, s_outside. cbn [vx vy vz]. f_equal; lra.
Qed.
Example C113_nonvacuous : exists (m : mesh R) l, mesh_run mesh_new flat_ops = Ret m /\ soup_of m = Some l /\ s_max_radius (m_points m) 3 /\ length l = 1%nat /\ s_norm (V3 0 2 0) <= 3 /\
  (forall t, In t l -> s_beside (V3 0 2 0) (s_outside 3) t) /\ (forall t, In t l -> s_flat (V3 (1/2) 0 0) (s_outside 3) t) /\ in_triangle (V3 (-1) (-1) 0) (V3 1 (-1) 0) (V3 1 1 0) (V3 (1/2) 0 0).
Proof.
  destruct flat_mesh as [m [RUN [S MR]]]. exists m, flat_soup. do 4 (split; [auto|]). split; [apply norm_sq; [lra|]; unfold s_norm2; tetn; lra|].
  assert (F : forall y x, s_flat (V3 x y 0) (s_outside 3) (V3 (-1) (-1) 0, V3 1 (-1) 0, V3 1 1 0)) by (intros x y; split; [exact flat_area|]; split; tetn; lra).
  split; [|split].
  - intros t [<-|[]]. split; [apply F|]. split.
    + intros [k [u [v [w [U [V [W [SU E]]]]]]]]. unfold s_between, s_outside in E. cbn [vx vy vz] in E. injection E as E1 E2 E3. nra.
    + left. unfold s_off_line. cbn [fst]. apply Rle_trans with 1; [apply Rmult_le_reg_r with (10 ^ 16); [apply pow_lt; lra|]; unfold Rdiv; rewrite Rmult_assoc, Rinv_l by (apply pow_nonzero; lra); simpl; lra|].
      rewrite <- sqrt_1. apply sqrt_le_1_alt. unfold s_cross3. tetn. lra.
  - intros t [<-|[]]. apply F.
  - exists (1 / 4), (1 / 4), (1 / 2). repeat split; try lra. cbn [vx vy vz]. f_equal; lra.
Qed.
Print Assumptions C113_accept.
Print Assumptions C113_on_triangle.
Print Assumptions C113_general.
Print Assumptions C113_outside_accepted.
