(** * Prisms: their triangles do not overlap, and the points behind all of them *)
From Coq Require Import ZArith NArith List Bool Lia Reals Lra Lia.
From Verif Require Import Num MathTypes Outcome Mesh Shapes Spec SpecShapes P_Tac P_Math P_Mesh P_MeshGeo P_Shapes SpecQuery P_Query2 P_Query5.
Import ListNotations.
Local Open Scope R_scope.

(** ** a mesh with cold caches is the result of its insertions *)
Definition pt_op {T} (p : vec3 T) : mesh_op T := OAddPoint p.
Definition tri_op {T} (t : N * N * N) : mesh_op T := let '(i, j, k) := t in OAddTriangle i j k.
Lemma run_app : forall (T : Type) (NT : Num T) a b (m m1 : mesh T), mesh_run m a = Ret m1 -> mesh_run m (a ++ b) = mesh_run m1 b.
Proof.
  intros T NT. induction a as [|o a IH]; intros b m m1 H; cbn in *; [injection H as <-; auto|].
  destruct (mesh_step m o) as [m2| | |]; cbn in *; try discriminate. apply IH. auto.
Qed.
Lemma run_points_only : forall (T : Type) (NT : Num T) pts pts0, mesh_run (invalidate (MkMesh pts0 [] n0 n0 [])) (map pt_op pts) = Ret (invalidate (MkMesh (pts0 ++ pts) [] n0 n0 [])).
Proof.
  intros T NT. induction pts as [|p pts IH]; intros pts0; cbn; [rewrite app_nil_r; auto|].
  specialize (IH (pts0 ++ [p])). rewrite <- app_assoc in IH. exact IH.
Qed.
Lemma run_tris_only : forall (T : Type) (NT : Num T) ts (pts : list (vec3 T)) ts0, mesh_run (invalidate (MkMesh pts ts0 n0 n0 [])) (map tri_op ts) =
  Ret (invalidate (MkMesh pts (ts0 ++ map (fun t => let '(i, j, k) := t in TI i j k) ts) n0 n0 [])).
Proof.
  intros T NT. induction ts as [|[[i j] k] ts IH]; intros pts ts0; cbn; [rewrite app_nil_r; auto|].
  specialize (IH pts (ts0 ++ [TI i j k])). rewrite <- app_assoc in IH. exact IH.
Qed.
Lemma is_mesh_run : forall (T : Type) (NT : Num T) (m : mesh T) pts ts, is_mesh m pts ts -> mesh_run mesh_new (map pt_op pts ++ map tri_op ts) = Ret m.
Proof.
  intros T NT [p t r r2 tc] pts ts [A [B [C [D E]]]]. cbn in A, B, C, D, E. subst p ts r r2 tc.
  rewrite (run_app _ _ _ _ _ _ (run_points_only T NT pts [])). etransitivity; [exact (run_tris_only T NT _ pts [])|]. cbn [app].
  unfold invalidate. cbn. f_equal. f_equal. rewrite map_map. rewrite <- (map_id t) at 2. apply map_ext. intros [x y z]. reflexivity.
Qed.

(** ** separation *)
Lemma affine_tri : forall f a b c u v w, affine f -> u + v + w = 1 ->
  f (V3 (u * vx a + v * vx b + w * vx c) (u * vy a + v * vy b + w * vy c) (u * vz a + v * vz b + w * vz c)) = u * f a + v * f b + w * f c.
Proof. intros f a b c u v w [g [k F]] S. rewrite !F. assert (w = 1 - u - v) by lra. subst w. unfold s_dot. cbn [vx vy vz]. ring. Qed.
Definition nooverlap (t t' : triple) : Prop := forall x, ~ (s_inner t x /\ s_inner t' x).
Lemma comb_le : forall u v w x y z, 0 < u -> 0 < v -> 0 < w -> x <= 0 -> y <= 0 -> z <= 0 -> u * x + v * y + w * z <= 0.
Proof. intros. nra. Qed.
Lemma comb_lt : forall u v w x y z, 0 < u -> 0 < v -> 0 < w -> x <= 0 -> y <= 0 -> z <= 0 -> x + y + z < 0 -> u * x + v * y + w * z < 0.
Proof.
  intros u v w x y z U V W X Y Z S. assert (u * x <= 0) by nra. assert (v * y <= 0) by nra. assert (w * z <= 0) by nra.
  destruct X as [X|X]; [nra|]. destruct Y as [Y|Y]; [nra|]. destruct Z as [Z|Z]; [nra|]. lra.
Qed.
Lemma sep : forall f a b c a' b' c', affine f -> f a <= 0 -> f b <= 0 -> f c <= 0 -> 0 <= f a' -> 0 <= f b' -> 0 <= f c' ->
  f a + f b + f c < 0 \/ 0 < f a' + f b' + f c' -> nooverlap (a, b, c) (a', b', c').
Proof.
  intros f a b c a' b' c' AF A B C A' B' C' S x [[u [v [w [U [V [W [E X]]]]]]] [u' [v' [w' [U' [V' [W' [E' X']]]]]]]].
  pose proof (affine_tri f a b c u v w AF E) as F. pose proof (affine_tri f a' b' c' u' v' w' AF E') as F'. rewrite <- X in F. rewrite <- X' in F'.
  destruct S as [S|S].
  - pose proof (comb_lt u v w _ _ _ U V W A B C S). assert (0 <= u' * f a' + v' * f b' + w' * f c') by (apply Rplus_le_le_0_compat; [apply Rplus_le_le_0_compat|]; apply Rmult_le_pos; lra). lra.
  - pose proof (comb_le u v w _ _ _ U V W A B C). pose proof (comb_lt u' v' w' (- f a') (- f b') (- f c') U' V' W' ltac:(lra) ltac:(lra) ltac:(lra) ltac:(lra)). nra.
Qed.
Lemma nooverlap_sym : forall t t', nooverlap t t' -> nooverlap t' t.
Proof. intros t t' H x [A B]. apply (H x). auto. Qed.
Lemma fop_app : forall (A : Type) (P : A -> A -> Prop) l l', ForallOrdPairs P l -> ForallOrdPairs P l' -> (forall x y, In x l -> In y l' -> P x y) -> ForallOrdPairs P (l ++ l').
Proof.
  intros A P l l' H H' C. induction H as [|x l F H IH]; cbn; auto. constructor.
  - apply Forall_app. split; auto. apply Forall_forall. intros y Y. apply C; [left|]; auto.
  - apply IH. intros; apply C; [right|]; auto.
Qed.
Lemma fop_flat : forall (A : Type) (P : A -> A -> Prop) (f : nat -> list A) n s, (forall i, (s <= i < s + n)%nat -> ForallOrdPairs P (f i)) ->
  (forall i j x y, (s <= i < j)%nat -> (j < s + n)%nat -> In x (f i) -> In y (f j) -> P x y) -> ForallOrdPairs P (flat_map f (seq s n)).
Proof.
  intros A P f. induction n as [|n IH]; intros s H C; cbn; [constructor|]. apply fop_app.
  - apply H. lia.
  - apply IH; [intros; apply H; lia|]. intros i j x y I J. apply (C i j); lia.
  - intros x y X Y. apply in_flat_map in Y. destruct Y as [j [J Y]]. apply in_seq in J. apply (C s j); auto; lia.
Qed.

(** ** the polygon *)
Definition crs (a b c : vec2 R) : R := s_cross2 (s_diff2 b a) (s_diff2 c a).
Lemma crs_rot : forall a b c, crs a b c = crs b c a.
Proof. intros. unfold crs, s_cross2, s_diff2. cbn [v2x v2y]. ring. Qed.
Lemma crs_swap : forall a b c, crs a b c = - crs a c b.
Proof. intros. unfold crs, s_cross2, s_diff2. cbn [v2x v2y]. ring. Qed.
Lemma crs_1 : forall a b, crs a b a = 0.
Proof. intros. unfold crs, s_cross2, s_diff2. cbn [v2x v2y]. ring. Qed.
Lemma crs_2 : forall a b, crs a b b = 0.
Proof. intros. unfold crs, s_cross2, s_diff2. cbn [v2x v2y]. ring. Qed.
Section Poly.
  Context (q : list (vec2 R)) (ST : s_strict_cw q) (lo hi : R) (LH : lo < hi).
  Notation n := (length q).
  Notation qi i := (nth i q d2).
  Lemma tri_lt : forall i j k, (i < j < k)%nat -> (k < n)%nat -> crs (qi i) (qi j) (qi k) < 0.
  Proof. intros i j k I K. apply (ST i j k); auto; apply nth_error_nth'; lia. Qed.
  Lemma side_lt : forall i k, (i < n)%nat -> (k < n)%nat -> k <> i -> k <> nxt n i -> crs (qi i) (qi (nxt n i)) (qi k) < 0.
  Proof.
    intros i k I K A B. destruct (nxt_lt n i I) as [L [N1 N2]]. destruct (Nat.eq_dec (S i) n) as [E|E].
    - rewrite N2 in * by auto. rewrite crs_rot. apply tri_lt; lia.
    - rewrite N1 in * by lia. destruct (lt_dec k i) as [C|C].
      + rewrite <- crs_rot. apply tri_lt; lia.
      + apply tri_lt; lia.
  Qed.
  Lemma side_le : forall i k, (i < n)%nat -> (k < n)%nat -> crs (qi i) (qi (nxt n i)) (qi k) <= 0.
  Proof.
    intros i k I K. destruct (Nat.eq_dec k i) as [->|A]; [rewrite crs_1; lra|]. destruct (Nat.eq_dec k (nxt n i)) as [->|B]; [rewrite crs_2; lra|].
    left. apply side_lt; auto.
  Qed.
  Lemma strict_convex : s_convex_cw q.
  Proof.
    intros a b p AB P. rewrite cyclic_map in AB. apply in_map_iff in AB. destruct AB as [i [E I]]. injection E as <- <-. apply in_seq in I.
    apply In_nth with (d := d2) in P. destruct P as [k [K <-]]. apply side_le; lia.
  Qed.
  Definition crsf (a b : vec2 R) (x : vec3 R) : R := crs a b (V2 (vx x) (vy x)).
  Lemma aff_crs : forall a b, affine (crsf a b).
  Proof.
    intros a b. exists (V3 (- (v2y b - v2y a)) (v2x b - v2x a) 0), (- ((v2x b - v2x a) * v2y a) + (v2y b - v2y a) * v2x a).
    intros x. unfold crsf, crs, s_cross2, s_diff2, s_dot. cbn [v2x v2y vx vy vz]. ring.
  Qed.
  Lemma crsf_up : forall a b z p, crsf a b (up z p) = crs a b p.
  Proof. intros a b z [x y]. reflexivity. Qed.
  Lemma aff_z : forall k, affine (fun x => vz x - k).
  Proof. intros k. exists (V3 0 0 1), (- k). intros x. unfold s_dot. cbn [vx vy vz]. ring. Qed.
  Lemma aff_z' : forall k, affine (fun x => k - vz x).
  Proof. intros k. exists (V3 0 0 (-1)), k. intros x. unfold s_dot. cbn [vx vy vz]. ring. Qed.
  Lemma aff_opp : forall f, affine f -> affine (fun x => - f x).
  Proof. intros f [[g1 g2 g3] [k F]]. exists (V3 (- g1) (- g2) (- g3)), (- k). intros x. rewrite F. unfold s_dot. cbn [vx vy vz]. ring. Qed.

  (** two triangles of a cap *)
  Lemma fan_fan : forall z i j, (1 <= i < j)%nat -> (S j < n)%nat ->
    nooverlap (up z (qi 0), up z (qi j), up z (qi (S j))) (up z (qi 0), up z (qi i), up z (qi (S i))).
  Proof.
    intros z i j I J. apply (sep (crsf (qi 0) (qi (S i)))); [apply aff_crs|..]; rewrite ?crsf_up, ?crs_1, ?crs_2; try lra.
    - destruct (Nat.eq_dec j (S i)) as [->|N]; [rewrite crs_2; lra|]. left. apply tri_lt; lia.
    - left. apply tri_lt; lia.
    - rewrite crs_swap. pose proof (tri_lt 0 i (S i) ltac:(lia) ltac:(lia)). lra.
    - right. rewrite (crs_swap _ _ (qi i)). pose proof (tri_lt 0 i (S i) ltac:(lia) ltac:(lia)). lra.
  Qed.
  Lemma nooverlap_flip : forall a b c t, nooverlap (a, b, c) t -> nooverlap (a, c, b) t.
  Proof.
    intros a b c t H x [[u [v [w [U [V [W [S E]]]]]]] I]. apply (H x). split; auto. exists u, w, v. repeat (split; [lra|]). rewrite E. f_equal; ring.
  Qed.
  Lemma fan_pairs : ForallOrdPairs nooverlap (flat_map (fanT lo hi q) (seq 1 (n - 2))).
  Proof.
    apply fop_flat.
    - intros i I. unfold fanT. repeat constructor. apply (sep (fun x => vz x - lo)); [apply aff_z|..]; unfold up; cbn [vz]; lra.
    - intros i j x y I J X Y. unfold fanT in X, Y. destruct X as [<-|[<-|[]]], Y as [<-|[<-|[]]].
      + apply nooverlap_sym, fan_fan; lia.
      + apply (sep (fun x => vz x - lo)); [apply aff_z|..]; unfold up; cbn [vz]; lra.
      + apply (sep (fun x => hi - vz x)); [apply aff_z'|..]; unfold up; cbn [vz]; lra.
      + apply nooverlap_flip, nooverlap_sym, nooverlap_flip, fan_fan; lia.
  Qed.
  Lemma side_corners : forall i a b c, In (a, b, c) (sideT lo hi q i) ->
    (forall v, In v [a; b; c] -> exists z, v = up z (qi i) \/ v = up z (qi (nxt n i))) /\
    (exists z z', (In (up z (qi i)) [a; b; c] /\ In (up z' (qi (nxt n i))) [a; b; c])).
  Proof.
    intros i a b c H. unfold sideT in H. destruct H as [H|[H|[]]]; injection H as <- <- <-.
    - split.
      + intros v [<-|[<-|[<-|[]]]]; eexists; eauto.
      + exists lo, lo. cbn. auto.
    - split.
      + intros v [<-|[<-|[<-|[]]]]; eexists; eauto.
      + exists hi, hi. cbn. auto.
  Qed.
  Lemma side_side : forall i j x y, (i < j < n)%nat -> (3 <= n)%nat -> In x (sideT lo hi q i) -> In y (sideT lo hi q j) -> nooverlap x y.
  Proof.
    intros i j [[a b] c] [[a' b'] c'] I N3 X Y. destruct (side_corners _ _ _ _ X) as [CX _]. destruct (side_corners _ _ _ _ Y) as [CY [z [z' [Z1 Z2]]]].
    destruct (nxt_lt n i ltac:(lia)) as [Li [Ni Ni']]. destruct (nxt_lt n j ltac:(lia)) as [Lj [Nj Nj']].
    set (f := crsf (qi i) (qi (nxt n i))).
    assert (FX : forall v, In v [a; b; c] -> f v = 0).
    { intros v V. destruct (CX v V) as [y [-> | ->]]; unfold f; rewrite crsf_up; [apply crs_1|apply crs_2]. }
    assert (FY : forall v, In v [a'; b'; c'] -> f v <= 0).
    { intros v V. destruct (CY v V) as [y [-> | ->]]; unfold f; rewrite crsf_up; apply side_le; lia. }
    assert (FS : exists v, In v [a'; b'; c'] /\ f v < 0).
    { destruct (Nat.eq_dec j (nxt n i)) as [E|E].
      - exists (up z' (qi (nxt n j))). split; auto. unfold f. rewrite crsf_up. apply side_lt; try lia.
      - exists (up z (qi j)). split; auto. unfold f. rewrite crsf_up. apply side_lt; lia. }
    apply nooverlap_sym, (sep f); [apply aff_crs|..]; try (apply FY; cbn; tauto); try (rewrite FX by (cbn; tauto); lra).
    left. destruct FS as [v [V S]]. assert (A := FY a' ltac:(cbn; tauto)). assert (B := FY b' ltac:(cbn; tauto)). assert (C := FY c' ltac:(cbn; tauto)).
    destruct V as [<-|[<-|[<-|[]]]]; lra.
  Qed.
  Lemma side_own : forall i, (i < n)%nat -> qi i <> qi (nxt n i) -> ForallOrdPairs nooverlap (sideT lo hi q i).
  Proof.
    intros i I NE. unfold sideT. repeat constructor. set (a := qi i) in *. set (b := qi (nxt n i)) in *.
    set (dx := v2x b - v2x a). set (dy := v2y b - v2y a). set (L := dx * dx + dy * dy).
    assert (LP : 0 < L).
    { unfold L. destruct (Req_dec dx 0) as [E|E]; [|nra]. destruct (Req_dec dy 0) as [E'|E']; [|nra]. exfalso. apply NE. destruct a, b. unfold dx, dy in *. cbn in *. f_equal; lra. }
    apply (sep (fun x => (vz x - lo) * L + (hi - lo) * ((vx x - v2x a) * dx + (vy x - v2y a) * dy) - (hi - lo) * L)).
    - exists (V3 ((hi - lo) * dx) ((hi - lo) * dy) L), (- lo * L - (hi - lo) * (v2x a * dx + v2y a * dy) - (hi - lo) * L). intros x. unfold s_dot. cbn [vx vy vz]. ring.
    - unfold up. cbn [vx vy vz]. nra.
    - unfold up. cbn [vx vy vz]. nra.
    - unfold up. cbn [vx vy vz]. right. fold dx dy L. ring.
    - unfold up. cbn [vx vy vz]. nra.
    - unfold up. cbn [vx vy vz]. fold dx dy L. nra.
    - unfold up. cbn [vx vy vz]. fold dx dy L. right. ring.
    - right. unfold up. cbn [vx vy vz]. fold dx dy L. nra.
  Qed.
  Lemma distinct : (3 <= n)%nat -> forall i, (i < n)%nat -> qi i <> qi (nxt n i).
  Proof.
    intros N3 i I E. destruct (nxt_lt n i I) as [L [N1 N2]].
    assert (K : exists k, (k < n)%nat /\ k <> i /\ k <> nxt n i).
    { destruct (Nat.eq_dec (S i) n) as [S|S].
      - rewrite N2 by auto. exists 1%nat. lia.
      - rewrite N1 by lia. destruct (Nat.eq_dec i 0); [exists 2%nat|exists 0%nat]; lia. }
    destruct K as [k [K [A B]]]. pose proof (side_lt i k I K A B) as S. rewrite E in S. unfold crs, s_cross2, s_diff2 in S. cbn [v2x v2y] in S. lra.
  Qed.
  Lemma side_pairs : (3 <= n)%nat -> ForallOrdPairs nooverlap (flat_map (sideT lo hi q) (seq 0 n)).
  Proof.
    intros N3. apply fop_flat.
    - intros i I. apply side_own; [lia|]. apply distinct; lia.
    - intros i j x y I J. apply side_side; lia.
  Qed.
  Lemma prism_flat : (3 <= n)%nat -> s_flat_disjoint (flat_map (fanT lo hi q) (seq 1 (n - 2)) ++ flat_map (sideT lo hi q) (seq 0 n)).
  Proof.
    intros N3. apply fop_app; [apply fan_pairs|apply side_pairs; auto|]. intros x y X Y.
    apply in_flat_map in X. destruct X as [i [I X]]. apply in_flat_map in Y. destruct Y as [j [J Y]].
    unfold fanT in X. unfold sideT in Y. destruct X as [<-|[<-|[]]]; destruct Y as [<-|[<-|[]]].
    - apply nooverlap_sym, (sep (fun x => lo - vz x)); [apply aff_z'|..]; unfold up; cbn [vz]; lra.
    - apply nooverlap_sym, (sep (fun x => lo - vz x)); [apply aff_z'|..]; unfold up; cbn [vz]; lra.
    - apply nooverlap_sym, (sep (fun x => vz x - hi)); [apply aff_z|..]; unfold up; cbn [vz]; lra.
    - apply nooverlap_sym, (sep (fun x => vz x - hi)); [apply aff_z|..]; unfold up; cbn [vz]; lra.
  Qed.
  (** the points behind all triangles *)
  Lemma height_side : forall a b x, s_height (up lo a) (up hi a) (up lo b) x = (hi - lo) * crsf a b x /\ s_height (up hi a) (up hi b) (up lo b) x = (hi - lo) * crsf a b x.
  Proof. intros a b x. unfold s_height, s_det, s_diff, crsf, crs, s_cross2, s_diff2, up. cbn [vx vy vz v2x v2y]. split; ring. Qed.
  Lemma height_cap : forall z a b c x, s_height (up z a) (up z b) (up z c) x = crs a b c * (vz x - z).
  Proof. intros. unfold s_height, s_det, s_diff, crs, s_cross2, s_diff2, up. cbn [vx vy vz v2x v2y]. ring. Qed.
  Lemma prism_inside : (3 <= n)%nat -> forall p, s_strictly_inside (flat_map (fanT lo hi q) (seq 1 (n - 2)) ++ flat_map (sideT lo hi q) (seq 0 n)) p <->
    lo < vz p < hi /\ forall a b, In (a, b) (s_cyclic q) -> crsf a b p < 0.
  Proof.
    intros N3 p. split.
    - intros H. split.
      + assert (C := tri_lt 0 1 2 ltac:(lia) ltac:(lia)).
        assert (I : In 1%nat (seq 1 (n - 2))) by (apply in_seq; lia).
        assert (A := H (up lo (qi 0)) (up lo (qi 1)) (up lo (qi 2)) ltac:(apply in_or_app; left; apply in_flat_map; exists 1%nat; split; [exact I|left; reflexivity])).
        assert (B := H (up hi (qi 0)) (up hi (qi 2)) (up hi (qi 1)) ltac:(apply in_or_app; left; apply in_flat_map; exists 1%nat; split; [exact I|right; left; reflexivity])).
        rewrite height_cap in A, B. rewrite crs_swap in B. split; nra.
      + intros a b AB. rewrite cyclic_map in AB. apply in_map_iff in AB. destruct AB as [i [E I]]. injection E as <- <-.
        assert (A := H (up lo (qi i)) (up hi (qi i)) (up lo (qi (nxt n i))) ltac:(apply in_or_app; right; apply in_flat_map; exists i; split; [exact I|left; reflexivity])).
        rewrite (proj1 (height_side _ _ _)) in A. nra.
    - intros [Z C] a b c I. apply in_app_iff in I. rewrite !in_flat_map in I. destruct I as [[i [I H]]|[i [I H]]]; apply in_seq in I.
      + assert (T := tri_lt 0 i (S i) ltac:(lia) ltac:(lia)). unfold fanT in H. destruct H as [H|[H|[]]]; injection H as <- <- <-; rewrite height_cap; [|rewrite crs_swap]; nra.
      + assert (S := C (qi i) (qi (nxt n i)) ltac:(rewrite cyclic_map; apply in_map_iff; exists i; split; auto; apply in_seq; lia)).
        unfold sideT in H. destruct H as [H|[H|[]]]; injection H as <- <- <-; [rewrite (proj1 (height_side _ _ _))|rewrite (proj2 (height_side _ _ _))]; nra.
  Qed.
End Poly.
(** ** the regular polygon is strictly convex *)
Lemma reg_strict : forall n r, r <> 0 -> s_strict_cw (s_regular n r).
Proof.
  intros n r RZ i j k a b c I A B C.
  assert (L : (k < n)%nat) by (rewrite <- (reg_len n r); apply nth_error_Some; congruence).
  assert (N1 : (1 <= n)%nat) by lia. pose proof (INRn n N1) as NP.
  apply nth_error_nth with (d := d2) in A, B, C. rewrite reg_nth in A, B, C by lia. subst a b c.
  unfold s_cross2, s_diff2, rp. cbn [v2x v2y]. pose proof (cross_id (th n (INR i)) (th n (INR j)) (th n (INR k))) as X.
  assert (SP : forall u v, (u < v)%nat -> (v < n)%nat -> 0 < sin ((th n (INR v) - th n (INR u)) / 2)).
  { intros u v U V. replace ((th n (INR v) - th n (INR u)) / 2) with (PI * (INR (v - u) / INR n)) by (rewrite minus_INR by lia; unfold th; field; lra).
    assert (D : 0 < INR (v - u)) by (apply lt_0_INR; lia). assert (D' : INR (v - u) < INR n) by (apply lt_INR; lia). pose proof PI_RGT_0.
    assert (Q : 0 < INR (v - u) / INR n) by (apply Rdiv_lt_0_compat; auto).
    assert (Q' : INR (v - u) / INR n < 1) by (apply Rmult_lt_reg_r with (INR n); auto; unfold Rdiv; rewrite Rmult_assoc, Rinv_l by lra; lra).
    apply sin_gt_0; nra. }
  pose proof (SP i j ltac:(lia) ltac:(lia)) as P1. pose proof (SP i k ltac:(lia) ltac:(lia)) as P2. pose proof (SP j k ltac:(lia) ltac:(lia)) as P3.
  set (S1 := sin ((th n (INR j) - th n (INR i)) / 2)) in *. set (S2 := sin ((th n (INR k) - th n (INR i)) / 2)) in *. set (S3 := sin ((th n (INR k) - th n (INR j)) / 2)) in *.
  assert (P : 0 < S1 * S2 * S3) by (repeat apply Rmult_lt_0_compat; auto).
  match goal with |- ?g < 0 => replace g with (- (r * r) * (4 * (S1 * S2 * S3))) end.
  - assert (0 < r * r) by nra. nra.
  - transitivity ((r * r) * (- 4 * S1 * S2 * S3)); [ring|]. rewrite <- X. ring.
Qed.
