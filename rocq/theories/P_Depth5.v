(** * Depth camera over the reals: the pixels of a triangle *)
From Coq Require Import ZArith NArith List Bool Lia Reals Lra Permutation.
From Flocq Require Import Core.Raux.
From Verif Require Import Num NumOrd MathTypes Outcome Mesh Spec P_Tac P_Math P_MeshGeo Depth P_Depth P_Depth3 P_Depth4 SpecDepth.
Import ListNotations.
Local Open Scope R_scope.

Lemma trunc_hit : forall xs xe (x : Z), xs <= xe -> (0 <= x)%Z -> (Ztrunc xs <= x <= Ztrunc xe)%Z -> exists X, xs <= X <= xe /\ Ztrunc X = x.
Proof.
  intros xs xe x L X0 [A B]. destruct (Z.eq_dec (Ztrunc xs) x) as [E|E]; [exists xs; split; [lra|auto]|].
  assert (A1 : xs <= IZR x).
  { destruct (Rlt_le_dec xs 0) as [N|N]; [apply IZR_le in X0; lra|]. assert (Ztrunc xs < x)%Z by lia. rewrite Ztrunc_floor in H by auto.
    pose proof (Zfloor_ub xs). apply IZR_lt in H. assert (K : (Zfloor xs + 1 <= x)%Z) by (rewrite <- (Ztrunc_floor xs N) in *; lia). apply IZR_le in K. rewrite plus_IZR in K. lra. }
  destruct (Rle_lt_dec (IZR x) xe) as [B1|B1]; [exists (IZR x); split; [lra|apply Ztrunc_IZR]|].
  exists xe. split; [lra|]. destruct (Rlt_le_dec xe 0) as [N|N].
  - assert (Ztrunc xe <= 0)%Z by (rewrite <- (Ztrunc_IZR 0); apply Ztrunc_le; lra). lia.
  - rewrite Ztrunc_floor in * by auto. pose proof (Zfloor_lb xe). apply IZR_le in B. lra.
Qed.
Lemma in_triangle_convex : forall a b c x y s, in_triangle a b c x -> in_triangle a b c y -> 0 <= s <= 1 ->
  in_triangle a b c (V3 (vx x + s * (vx y - vx x)) (vy x + s * (vy y - vy x)) (vz x + s * (vz y - vz x))).
Proof.
  intros a b c x y s [u [v [w [U [V [W [SUM ->]]]]]]] [u' [v' [w' [U' [V' [W' [SUM' ->]]]]]]] S.
  exists (u + s * (u' - u)), (v + s * (v' - v)), (w + s * (w' - w)).
  assert (P : forall q q', 0 <= q -> 0 <= q' -> 0 <= q + s * (q' - q)).
  { intros q q' Q Q'. replace (q + s * (q' - q)) with ((1 - s) * q + s * q') by ring. apply Rplus_le_le_0_compat; apply Rmult_le_pos; lra. }
  split; [auto|]. split; [auto|]. split; [auto|]. split.
  - replace (u + s * (u' - u) + (v + s * (v' - v)) + (w + s * (w' - w))) with ((u + v + w) + s * ((u' + v' + w') - (u + v + w))) by ring. rewrite SUM, SUM'. ring.
  - cbn [vx vy vz]. apply V3_eq; ring.
Qed.
Lemma in_triangle_permut : forall a b c p q r x, Permutation [a; b; c] [p; q; r] -> in_triangle a b c x -> in_triangle p q r x.
Proof.
  intros a b c p q r x P [u [v [w [U [V [W [SUM X]]]]]]].
  assert (H : exists u' v' w', 0 <= u' /\ 0 <= v' /\ 0 <= w' /\ u' + v' + w' = 1 /\ Permutation [(u, a); (v, b); (w, c)] [(u', p); (v', q); (w', r)]).
  { change [a; b; c] with (map snd [(u, a); (v, b); (w, c)]) in P. apply Permutation_sym in P. apply Permutation_map_inv in P as [l3 [E P]].
    destruct l3 as [|[u' p'] [|[v' q'] [|[w' r'] [|]]]]; try discriminate. cbn [map snd] in E. injection E as -> -> ->.
    assert (N : forall k e, In (k, e) [(u', p'); (v', q'); (w', r')] -> 0 <= k).
    { intros k e I. apply (Permutation_in _ (Permutation_sym P)) in I. destruct I as [I|[I|[I|[]]]]; injection I as <- _; auto. }
    exists u', v', w'. split; [apply (N u' p'); left; auto|]. split; [apply (N v' q'); right; left; auto|]. split; [apply (N w' r'); right; right; left; auto|]. split; [|auto].
    assert (FS : forall l l' : list (R * vec3 R), Permutation l l' -> fold_right (fun e s => fst e + s) 0 l = fold_right (fun e s => fst e + s) 0 l').
    { intros l l' PP. induction PP; cbn [fold_right fst]; lra. }
    apply FS in P. cbn [fold_right fst] in P. lra. }
  destruct H as [u' [v' [w' [U' [V' [W' [S' PP]]]]]]]. exists u', v', w'. split; auto. split; auto. split; auto. split; auto. rewrite X.
  assert (FS : forall (f : vec3 R -> R) (l l' : list (R * vec3 R)), Permutation l l' -> fold_right (fun e s => fst e * f (snd e) + s) 0 l = fold_right (fun e s => fst e * f (snd e) + s) 0 l').
  { intros f l l' P'. induction P'; cbn [fold_right fst snd]; lra. }
  pose proof (FS vx _ _ PP) as FX. pose proof (FS vy _ _ PP) as FY. pose proof (FS vz _ _ PP) as FZ. cbn [fold_right fst snd] in FX, FY, FZ. apply V3_eq; lra.
Qed.

(** corners sorted by row: m above d above e, the rows being the integers a <= b <= c; pr is the point of the long edge at row b *)
Section Sorted.
  Context (m d e : vec3 R) (a b c : Z).
  Hypothesis AB : (a <= b)%Z.
  Hypothesis BC : (b <= c)%Z.
  Hypothesis AC : (a < c)%Z.
  Let S1 := V3 (vx m) (IZR a) (vz m).
  Let S2 := V3 (vx d) (IZR b) (vz d).
  Let S3 := V3 (vx e) (IZR c) (vz e).
  Let prf (f : vec3 R -> R) := (f m * IZR (c - b) + f e * IZR (b - a)) / IZR (c - a).
  Let px := prf vx.
  Let pz := prf vz.
  Lemma ac_pos : 0 < IZR c - IZR a. Proof. apply IZR_lt in AC. lra. Qed.
  Lemma ab_pos : 0 <= IZR b - IZR a. Proof. apply IZR_le in AB. lra. Qed.
  Lemma bc_pos : 0 <= IZR c - IZR b. Proof. apply IZR_le in BC. lra. Qed.
  Lemma prf_lo : forall f : vec3 R -> R, (prf f - f m) * (IZR c - IZR a) = (IZR b - IZR a) * (f e - f m).
  Proof. intros f. pose proof ac_pos. unfold prf. rewrite !minus_IZR. field. lra. Qed.
  Lemma prf_hi : forall f : vec3 R -> R, (prf f - f e) * (IZR c - IZR a) = (IZR c - IZR b) * (f m - f e).
  Proof. intros f. pose proof ac_pos. unfold prf. rewrite !minus_IZR. field. lra. Qed.
  Lemma prime_in : in_triangle S1 S2 S3 (V3 px (IZR b) pz).
  Proof.
    pose proof ac_pos as P. pose proof ab_pos as Q. pose proof bc_pos as R0.
    exists ((IZR c - IZR b) / (IZR c - IZR a)), 0, ((IZR b - IZR a) / (IZR c - IZR a)).
    split; [apply Rmult_le_pos; [lra|left; apply Rinv_0_lt_compat; lra]|]. split; [lra|]. split; [apply Rmult_le_pos; [lra|left; apply Rinv_0_lt_compat; lra]|].
    split; [field; lra|]. unfold px, pz, prf, S1, S2, S3. rewrite !minus_IZR. cbn [vx vy vz]. apply V3_eq; field; lra.
  Qed.
  Lemma corner_in : in_triangle S1 S2 S3 S1 /\ in_triangle S1 S2 S3 S2 /\ in_triangle S1 S2 S3 S3.
  Proof.
    split; [|split]; [exists 1, 0, 0|exists 0, 1, 0|exists 0, 0, 1]; (split; [lra|]); (split; [lra|]); (split; [lra|]); (split; [lra|]); unfold S1, S2, S3; cbn [vx vy vz]; apply V3_eq; ring.
  Qed.
  (** rows of the upper part: between the edges from m to d and from m to pr *)
  Lemma upper_row : forall y X D, (a < b)%Z -> (y <= b)%Z -> in_triangle S1 S2 S3 (V3 X (IZR y) D) ->
    let t := (IZR y - IZR a) / (IZR b - IZR a) in 0 <= t <= 1 /\ exists k l, 0 <= k /\ 0 <= l /\ k + l = t /\ X = vx m + k * (vx d - vx m) + l * (px - vx m).
  Proof.
    intros y X D LT YB [u [v [w [U [V [W [SUM E]]]]]]] t. injection E as E1 E2 _. unfold S1, S2, S3 in *. cbn [vx vy vz] in *.
    pose proof ac_pos as P. assert (Q : 0 < IZR b - IZR a) by (apply IZR_lt in LT; lra). apply IZR_le in YB.
    set (q := (IZR c - IZR a) / (IZR b - IZR a)). assert (Q0 : 0 < q) by (apply Rmult_lt_0_compat; [lra|apply Rinv_0_lt_compat; lra]).
    assert (T : v + w * q = t). { unfold t, q. replace (IZR y - IZR a) with (v * (IZR b - IZR a) + w * (IZR c - IZR a)) by (replace u with (1 - v - w) in E2 by lra; lra). field. lra. }
    assert (W0 : 0 <= w * q) by (apply Rmult_le_pos; lra).
    split. { split; [lra|]. unfold t. apply Rmult_le_reg_r with (IZR b - IZR a); auto. unfold Rdiv. rewrite Rmult_assoc, Rinv_l by lra. lra. }
    exists v, (w * q). split; auto. split; auto. split; auto. rewrite E1. pose proof (prf_lo vx) as PL. fold px in PL. unfold q.
    replace (w * ((IZR c - IZR a) / (IZR b - IZR a)) * (px - vx m)) with (w * ((px - vx m) * (IZR c - IZR a)) / (IZR b - IZR a)) by (field; lra). rewrite PL. replace u with (1 - v - w) by lra. field. lra.
  Qed.
  Lemma lower_row : forall y X D, (b < c)%Z -> (b <= y)%Z -> in_triangle S1 S2 S3 (V3 X (IZR y) D) ->
    let t := (IZR c - IZR y) / (IZR c - IZR b) in 0 <= t <= 1 /\ exists k l, 0 <= k /\ 0 <= l /\ k + l = t /\ X = vx e + k * (vx d - vx e) + l * (px - vx e).
  Proof.
    intros y X D LT YB [u [v [w [U [V [W [SUM E]]]]]]] t. injection E as E1 E2 _. unfold S1, S2, S3 in *. cbn [vx vy vz] in *.
    pose proof ac_pos as P. assert (Q : 0 < IZR c - IZR b) by (apply IZR_lt in LT; lra). apply IZR_le in YB.
    set (q := (IZR c - IZR a) / (IZR c - IZR b)). assert (Q0 : 0 < q) by (apply Rmult_lt_0_compat; [lra|apply Rinv_0_lt_compat; lra]).
    assert (T : v + u * q = t). { unfold t, q. replace (IZR c - IZR y) with (v * (IZR c - IZR b) + u * (IZR c - IZR a)) by (replace w with (1 - u - v) in E2 by lra; lra). field. lra. }
    assert (W0 : 0 <= u * q) by (apply Rmult_le_pos; lra).
    split. { split; [lra|]. unfold t. apply Rmult_le_reg_r with (IZR c - IZR b); auto. unfold Rdiv. rewrite Rmult_assoc, Rinv_l by lra. lra. }
    exists v, (u * q). split; auto. split; auto. split; auto. rewrite E1. pose proof (prf_hi vx) as PL. fold px in PL. unfold q.
    replace (u * ((IZR c - IZR a) / (IZR c - IZR b)) * (px - vx e)) with (u * ((px - vx e) * (IZR c - IZR a)) / (IZR c - IZR b)) by (field; lra). rewrite PL. replace w with (1 - u - v) by lra. field. lra.
  Qed.
  (** points of the two edges of a part, at row y *)
  Lemma up_edge : forall y qx qz, (a < b)%Z -> (a <= y <= b)%Z -> in_triangle S1 S2 S3 (V3 qx (IZR b) qz) ->
    in_triangle S1 S2 S3 (V3 (vx m + IZR (y - a) * ((qx - vx m) / IZR (b - a))) (IZR y) (vz m + IZR (y - a) * ((qz - vz m) / IZR (b - a)))).
  Proof.
    intros y qx qz LT [Y1 Y2] I. apply IZR_lt in LT. apply IZR_le in Y1. apply IZR_le in Y2. destruct corner_in as [C1 _].
    pose proof (in_triangle_convex _ _ _ _ _ ((IZR y - IZR a) / (IZR b - IZR a)) C1 I) as H.
    rewrite !minus_IZR. match type of H with ?g -> in_triangle _ _ _ ?v => assert (G : g) end.
    { split; [apply Rmult_le_pos; [lra|left; apply Rinv_0_lt_compat; lra]|]. apply Rmult_le_reg_r with (IZR b - IZR a); [lra|]. unfold Rdiv. rewrite Rmult_assoc, Rinv_l by lra. lra. }
    specialize (H G). match type of H with in_triangle _ _ _ ?v => match goal with |- in_triangle _ _ _ ?v' => replace v' with v; [exact H|] end end. unfold S1. cbn [vx vy vz]. apply V3_eq; field; lra.
  Qed.
  Lemma lo_edge : forall y qx qz, (b < c)%Z -> (b <= y <= c)%Z -> in_triangle S1 S2 S3 (V3 qx (IZR b) qz) ->
    in_triangle S1 S2 S3 (V3 (qx + IZR (y - b) * ((vx e - qx) / IZR (c - b))) (IZR y) (qz + IZR (y - b) * ((vz e - qz) / IZR (c - b)))).
  Proof.
    intros y qx qz LT [Y1 Y2] I. apply IZR_lt in LT. apply IZR_le in Y1. apply IZR_le in Y2. destruct corner_in as [_ [_ C3]].
    pose proof (in_triangle_convex _ _ _ _ _ ((IZR y - IZR b) / (IZR c - IZR b)) I C3) as H.
    rewrite !minus_IZR. match type of H with ?g -> in_triangle _ _ _ ?v => assert (G : g) end.
    { split; [apply Rmult_le_pos; [lra|left; apply Rinv_0_lt_compat; lra]|]. apply Rmult_le_reg_r with (IZR c - IZR b); [lra|]. unfold Rdiv. rewrite Rmult_assoc, Rinv_l by lra. lra. }
    specialize (H G). match type of H with in_triangle _ _ _ ?v => match goal with |- in_triangle _ _ _ ?v' => replace v' with v; [exact H|] end end. unfold S3. cbn [vx vy vz]. apply V3_eq; field; lra.
  Qed.
End Sorted.
(** a pixel shaded from two points of the moved triangle in its row *)
Definition shaded (S1 S2 S3 : vec3 R) (w h i : Z) (p : pixel R) : Prop :=
  in_image w h p /\ px_i p = i /\ exists Xa Da Xb Db, in_triangle S1 S2 S3 (V3 Xa (IZR (px_y p)) Da) /\ in_triangle S1 S2 S3 (V3 Xb (IZR (px_y p)) Db) /\ Xa <= Xb /\
    (Ztrunc Xa <= px_x p <= Ztrunc Xb)%Z /\ px_d p = 1 / (Da + (IZR (px_x p) - anchor Xa) * ((Db - Da) / (Xb - Xa))).
Definition drawn_at (ps : list (pixel R)) (x y : Z) : Prop := exists p, In p ps /\ px_x p = x /\ px_y p = y.
Lemma in_tri_cast : forall a b c v, in_triangle a b c v -> castable (vx a) -> castable (vx b) -> castable (vx c) -> castable (vx v).
Proof.
  intros a b c v [u [k [l [U [K [L [SUM ->]]]]]]] A B C. cbn [vx].
  assert (LO : Rmin (vx a) (Rmin (vx b) (vx c)) <= u * vx a + k * vx b + l * vx c).
  { set (q := Rmin (vx a) (Rmin (vx b) (vx c))). assert (q <= vx a) by apply Rmin_l. assert (q <= vx b) by (eapply Rle_trans; [apply Rmin_r|apply Rmin_l]). assert (q <= vx c) by (eapply Rle_trans; [apply Rmin_r|apply Rmin_r]).
    replace q with (u * q + k * q + l * q) at 1 by (replace u with (1 - k - l) by lra; ring). repeat apply Rplus_le_compat; apply Rmult_le_compat_l; auto. }
  assert (HI : u * vx a + k * vx b + l * vx c <= Rmax (vx a) (Rmax (vx b) (vx c))).
  { set (q := Rmax (vx a) (Rmax (vx b) (vx c))). assert (vx a <= q) by apply Rmax_l. assert (vx b <= q) by (eapply Rle_trans; [apply Rmax_l|apply Rmax_r]). assert (vx c <= q) by (eapply Rle_trans; [apply Rmax_r|apply Rmax_r]).
    replace q with (u * q + k * q + l * q) by (replace u with (1 - k - l) by lra; ring). repeat apply Rplus_le_compat; apply Rmult_le_compat_l; auto. }
  eapply cast_between; [| |split; [exact LO|exact HI]].
  - unfold Rmin. destruct (Rle_dec _ _); destruct (Rle_dec _ _); auto.
  - unfold Rmax. destruct (Rle_dec _ _); destruct (Rle_dec _ _); auto.
Qed.
Lemma part1_R : forall w h (m d e pa pb : vec3 R) i a b c, (a <= b <= c)%Z -> (a < c)%Z -> (-2147483648 < a)%Z -> castable (vx m) -> castable (vx d) -> castable (vx e) ->
  let S1 := V3 (vx m) (IZR a) (vz m) in let S2 := V3 (vx d) (IZR b) (vz d) in let S3 := V3 (vx e) (IZR c) (vz e) in
  let px := (vx m * IZR (c - b) + vx e * IZR (b - a)) / IZR (c - a) in
  vx pa <= vx d <= vx pb -> vx pa <= px <= vx pb -> in_triangle S1 S2 S3 (V3 (vx pa) (IZR b) (vz pa)) -> in_triangle S1 S2 S3 (V3 (vx pb) (IZR b) (vz pb)) ->
  exists ps, drawTrianglePart w h a b (vx m) ((vx pa - vx m) / IZR (b - a)) (vx m) ((vx pb - vx m) / IZR (b - a)) (vz m) ((vz pa - vz m) / IZR (b - a)) (vz m) ((vz pb - vz m) / IZR (b - a)) i = Ret ps /\
    (forall p, In p ps -> shaded S1 S2 S3 w h i p) /\
    ((a < b)%Z -> forall x y X D, (0 <= x < w)%Z -> (0 <= y < h)%Z -> (a <= y <= b)%Z -> in_triangle S1 S2 S3 (V3 X (IZR y) D) -> Ztrunc X = x -> drawn_at ps x y).
Proof.
  intros w h m d e pa pb i a b c ABC AC A0 CM CD CE S1 S2 S3 px PD PP IA IB.
  assert (IN : forall y, (a <= y <= b)%Z ->
    in_triangle S1 S2 S3 (V3 (vx m + IZR (y - a) * ((vx pa - vx m) / IZR (b - a))) (IZR y) (vz m + IZR (y - a) * ((vz pa - vz m) / IZR (b - a)))) /\
    in_triangle S1 S2 S3 (V3 (vx m + IZR (y - a) * ((vx pb - vx m) / IZR (b - a))) (IZR y) (vz m + IZR (y - a) * ((vz pb - vz m) / IZR (b - a)))) /\
    vx m + IZR (y - a) * ((vx pa - vx m) / IZR (b - a)) <= vx m + IZR (y - a) * ((vx pb - vx m) / IZR (b - a))).
  { intros y Y. destruct (Z.eq_dec a b) as [E|E].
    - assert (y = a) by lia. subst y. rewrite Z.sub_diag, !Rmult_0_l, !Rplus_0_r. destruct (corner_in m d e a b c) as [C1 _]; [lia..|]. split; [exact C1|]. split; [exact C1|lra].
    - split; [apply up_edge; auto; lia|]. split; [apply up_edge; auto; lia|]. apply Rplus_le_compat_l. apply Rmult_le_compat_l; [apply IZR_le; lia|]. apply Rmult_le_compat_r; [|lra].
      left. apply Rinv_0_lt_compat. apply IZR_lt. lia. }
  assert (CC : forall y, (a <= y <= b)%Z -> castable (vx m + IZR (y - a) * ((vx pa - vx m) / IZR (b - a))) /\ castable (vx m + IZR (y - a) * ((vx pb - vx m) / IZR (b - a)))).
  { intros y Y. destruct (IN y Y) as [I1 [I2 _]]. apply in_tri_cast in I1; auto. apply in_tri_cast in I2; auto. }
  destruct (part_R w h a b (vx m) ((vx pa - vx m) / IZR (b - a)) (vx m) ((vx pb - vx m) / IZR (b - a)) (vz m) ((vz pa - vz m) / IZR (b - a)) (vz m) ((vz pb - vz m) / IZR (b - a)) i A0) as [ps [E P]].
  { intros y Y _. destruct (CC y Y). auto. }
  exists ps. split; auto. split.
  - intros p I. apply P in I as [y [Y [YI [x [X [XR ->]]]]]]. destruct (IN y Y) as [I1 [I2 L]]. split; [split; cbn; lia|]. split; [reflexivity|]. cbn [px_x px_y px_d].
    do 4 eexists. split; [exact I1|]. split; [exact I2|]. split; [exact L|]. split; [exact XR|reflexivity].
  - intros LT x y X D XI YI Y IT TX. destruct (upper_row m d e a b c AC y X D LT ltac:(lia) IT) as [T [k [l [K [L [KL EX]]]]]]. fold px in EX.
    assert (DV : forall q, IZR (y - a) * ((q - vx m) / IZR (b - a)) = (k + l) * (q - vx m)). { intros q. rewrite KL, !minus_IZR. apply IZR_lt in LT. field. lra. }
    eexists. split; [apply P; exists y; split; [exact Y|]; split; [exact YI|]; exists x; split; [exact XI|]; split; [|reflexivity]|split; reflexivity].
    rewrite !DV, <- TX. split; apply Ztrunc_le; rewrite EX.
    + assert (k * vx pa <= k * vx d) by (apply Rmult_le_compat_l; lra). assert (l * vx pa <= l * px) by (apply Rmult_le_compat_l; lra). lra.
    + assert (k * vx d <= k * vx pb) by (apply Rmult_le_compat_l; lra). assert (l * px <= l * vx pb) by (apply Rmult_le_compat_l; lra). lra.
Qed.
Lemma part2_R : forall w h (m d e pa pb : vec3 R) i a b c, (a <= b <= c)%Z -> (a < c)%Z -> (-2147483648 < a)%Z -> castable (vx m) -> castable (vx d) -> castable (vx e) ->
  let S1 := V3 (vx m) (IZR a) (vz m) in let S2 := V3 (vx d) (IZR b) (vz d) in let S3 := V3 (vx e) (IZR c) (vz e) in
  let px := (vx m * IZR (c - b) + vx e * IZR (b - a)) / IZR (c - a) in
  vx pa <= vx d <= vx pb -> vx pa <= px <= vx pb -> in_triangle S1 S2 S3 (V3 (vx pa) (IZR b) (vz pa)) -> in_triangle S1 S2 S3 (V3 (vx pb) (IZR b) (vz pb)) ->
  exists ps, drawTrianglePart w h b c (vx pa) ((vx e - vx pa) / IZR (c - b)) (vx pb) ((vx e - vx pb) / IZR (c - b)) (vz pa) ((vz e - vz pa) / IZR (c - b)) (vz pb) ((vz e - vz pb) / IZR (c - b)) i = Ret ps /\
    (forall p, In p ps -> shaded S1 S2 S3 w h i p) /\
    ((b < c)%Z -> forall x y X D, (0 <= x < w)%Z -> (0 <= y < h)%Z -> (b <= y <= c)%Z -> in_triangle S1 S2 S3 (V3 X (IZR y) D) -> Ztrunc X = x -> drawn_at ps x y).
Proof.
  intros w h m d e pa pb i a b c ABC AC A0 CM CD CE S1 S2 S3 px PD PP IA IB.
  assert (IN : forall y, (b <= y <= c)%Z ->
    in_triangle S1 S2 S3 (V3 (vx pa + IZR (y - b) * ((vx e - vx pa) / IZR (c - b))) (IZR y) (vz pa + IZR (y - b) * ((vz e - vz pa) / IZR (c - b)))) /\
    in_triangle S1 S2 S3 (V3 (vx pb + IZR (y - b) * ((vx e - vx pb) / IZR (c - b))) (IZR y) (vz pb + IZR (y - b) * ((vz e - vz pb) / IZR (c - b)))) /\
    vx pa + IZR (y - b) * ((vx e - vx pa) / IZR (c - b)) <= vx pb + IZR (y - b) * ((vx e - vx pb) / IZR (c - b))).
  { intros y Y. destruct (Z.eq_dec b c) as [E|E].
    - assert (y = b) by lia. subst y. rewrite Z.sub_diag, !Rmult_0_l, !Rplus_0_r. split; [exact IA|]. split; [exact IB|lra].
    - split; [apply lo_edge; auto; lia|]. split; [apply lo_edge; auto; lia|].
      assert (BC : IZR b < IZR c) by (apply IZR_lt; lia). assert (Y1 : IZR b <= IZR y) by (apply IZR_le; lia). assert (Y2 : IZR y <= IZR c) by (apply IZR_le; lia). rewrite !minus_IZR.
      apply Rmult_le_reg_r with (IZR c - IZR b); [lra|].
      replace ((vx pa + (IZR y - IZR b) * ((vx e - vx pa) / (IZR c - IZR b))) * (IZR c - IZR b)) with (vx pa * (IZR c - IZR y) + (IZR y - IZR b) * vx e) by (field; lra).
      replace ((vx pb + (IZR y - IZR b) * ((vx e - vx pb) / (IZR c - IZR b))) * (IZR c - IZR b)) with (vx pb * (IZR c - IZR y) + (IZR y - IZR b) * vx e) by (field; lra).
      apply Rplus_le_compat_r. apply Rmult_le_compat_r; lra. }
  assert (CC : forall y, (b <= y <= c)%Z -> castable (vx pa + IZR (y - b) * ((vx e - vx pa) / IZR (c - b))) /\ castable (vx pb + IZR (y - b) * ((vx e - vx pb) / IZR (c - b)))).
  { intros y Y. destruct (IN y Y) as [I1 [I2 _]]. apply in_tri_cast in I1; auto. apply in_tri_cast in I2; auto. }
  destruct (part_R w h b c (vx pa) ((vx e - vx pa) / IZR (c - b)) (vx pb) ((vx e - vx pb) / IZR (c - b)) (vz pa) ((vz e - vz pa) / IZR (c - b)) (vz pb) ((vz e - vz pb) / IZR (c - b)) i) as [ps [E P]]; [lia| |].
  { intros y Y _. destruct (CC y Y). auto. }
  exists ps. split; auto. split.
  - intros p I. apply P in I as [y [Y [YI [x [X [XR ->]]]]]]. destruct (IN y Y) as [I1 [I2 L]]. split; [split; cbn; lia|]. split; [reflexivity|]. cbn [px_x px_y px_d].
    do 4 eexists. split; [exact I1|]. split; [exact I2|]. split; [exact L|]. split; [exact XR|reflexivity].
  - intros LT x y X D XI YI Y IT TX. destruct (lower_row m d e a b c AC y X D LT ltac:(lia) IT) as [T [k [l [K [L [KL EX]]]]]]. fold px in EX.
    assert (DV : forall q, q + IZR (y - b) * ((vx e - q) / IZR (c - b)) = vx e + (k + l) * (q - vx e)). { intros q. rewrite KL, !minus_IZR. apply IZR_lt in LT. field. lra. }
    eexists. split; [apply P; exists y; split; [exact Y|]; split; [exact YI|]; exists x; split; [exact XI|]; split; [|reflexivity]|split; reflexivity].
    rewrite !DV, <- TX. split; apply Ztrunc_le; rewrite EX.
    + assert (k * vx pa <= k * vx d) by (apply Rmult_le_compat_l; lra). assert (l * vx pa <= l * px) by (apply Rmult_le_compat_l; lra). lra.
    + assert (k * vx d <= k * vx pb) by (apply Rmult_le_compat_l; lra). assert (l * px <= l * vx pb) by (apply Rmult_le_compat_l; lra). lra.
Qed.
