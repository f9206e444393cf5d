(** Composite shapes on doubles, part 6: rays through trees of any depth *)
From Coq Require Import ZArith NArith List Bool Lia Reals Lra Psatz.
From Flocq Require Import Core BinarySingleNaN.
From Verif Require Import Num NumOrd MathTypes Outcome Mesh Box Composite Spec SpecComposite SpecRound SpecCompF P_Tac P_Math P_Rot P_Mesh P_MeshGeo P_Box P_BoxMesh P_Composite.
From Verif Require Import P_Round P_Round2 P_Round3 P_OctF P_InsideF P_Query4 P_CompF1 P_CompF2 P_CompF3 P_CompF4 P_CompF5 Props_RayF.
Import ListNotations.
Local Open Scope R_scope.
Local Notation fin := (is_finite (prec := 53) (emax := 1024)).

(** ** rays and frames *)
Lemma ray_frame : forall (pose : trans3 R) p u s, s_ray_at (tapply (tinverse pose) p) (m3mulv (tR (tinverse pose)) u) s = tapply (tinverse pose) (s_ray_at p u s).
Proof. intros [[a b c d e f g h i] [x y z]] [p1 p2 p3] [u1 u2 u3] s. unfold s_ray_at. unmath. apply V3_eq; ring. Qed.
Lemma dir_frame : forall (pose q : trans3 R) u, m3mulv (tR (tinverse (tmul pose q))) u = m3mulv (tR (tinverse q)) (m3mulv (tR (tinverse pose)) u).
Proof.
  intros [[a b c d e f g h i] t1] [[a' b' c' d' e' f' g' h' i'] t2] [u1 u2 u3]. cbn [tR tinverse tmul]. clear t1 t2. unmath. apply V3_eq; ring.
Qed.
Lemma dir_id : forall u : vec3 R, m3mulv (tR (tinverse tidentity)) u = u.
Proof. intros [u1 u2 u3]. unmath. apply V3_eq; ring. Qed.
Lemma apply_mul : forall (a b : trans3 R) v, tapply (tmul a b) v = tapply a (tapply b v).
Proof. intros [[a b c d e f g h i] [x y z]] [[a' b' c' d' e' f' g' h' i'] [x' y' z']] [u1 u2 u3]. unmath. apply V3_eq; ring. Qed.
Lemma passes_frame : forall e mn mx pose q p u s, rigid pose ->
  (s_passes e mn mx (tmul pose q) p u s <-> s_passes e mn mx q (tapply (tinverse pose) p) (m3mulv (tR (tinverse pose)) u) s).
Proof.
  intros e mn mx pose q p u s RG. unfold s_passes. rewrite ray_frame. unfold s_placed. split; intros [v [V E]]; exists v; (split; [exact V|]).
  - rewrite E, apply_mul, tinverse_apply; auto.
  - rewrite apply_mul, <- E, tapply_inverse; auto.
Qed.
Lemma passes_id : forall e mn mx p u s, s_passes e mn mx tidentity p u s <-> s_grown e mn mx (s_ray_at p u s).
Proof.
  intros e mn mx p u s. unfold s_passes, s_placed, s_grown. split.
  - intros [q [Q E]]. rewrite E. rewrite tapply_id. auto.
  - intros H. eexists. split; [exact H|]. rewrite tapply_id. auto.
Qed.
Lemma passes_by : forall e t mn mx pose p u s, s_leaf t mn mx pose -> s_passes e mn mx pose p u s -> s_in_by e t (s_ray_at p u s).
Proof.
  intros e t mn mx pose p u s L [q [Q E]]. rewrite E. clear E. induction L as [mn mx|l t pose mn mx q' I L IH]; [rewrite tapply_id; constructor; auto|].
  rewrite apply_mul. econstructor; eauto.
Qed.
Lemma deep_grown : forall e lo hi q, 0 <= e -> (forall v, s_dist v q <= e -> s_in_box lo hi v) -> s_grown (- e) lo hi q.
Proof.
  intros e lo hi q P H. destruct q as [x y z].
  assert (D : forall v, s_dist2 v (V3 x y z) <= e * e -> s_in_box lo hi v) by (intros v V; apply H; apply dist_le; auto).
  pose proof (D (V3 (x + e) y z)) as A1. pose proof (D (V3 (x - e) y z)) as A2. pose proof (D (V3 x (y + e) z)) as A3. pose proof (D (V3 x (y - e) z)) as A4.
  pose proof (D (V3 x y (z + e))) as A5. pose proof (D (V3 x y (z - e))) as A6. unfold s_dist2 in *. cbn [vx vy vz] in *.
  assert (B1 := A1 ltac:(nra)). assert (B2 := A2 ltac:(nra)). assert (B3 := A3 ltac:(nra)). assert (B4 := A4 ltac:(nra)). assert (B5 := A5 ltac:(nra)). assert (B6 := A6 ltac:(nra)).
  unfold s_grown, s_in_box in *. cbn [vx vy vz] in *. lra.
Qed.

(** ** the loop over the children *)
Lemma ray_loop : forall (A : Type) (r : ray F64) (t0 : F64) (P Q : A -> R -> Prop) (l : list A) (cl : list (child F64 * trans3 F64)),
  Forall2 (fun a ci => forall md d0 : F64, s_single md -> exists h x,
    ch_ray (fst ci) (ray_make (tapply (snd ci) (r_o r)) (m3mulv (tR (snd ci)) (r_d r))) t0 md d0 = Ret (h, x) /\
    (h = true -> s_single x /\ B2R x < B2R md /\ P a (B2R x)) /\ (forall s, Q a s -> s < B2R md -> h = true /\ B2R x <= s)) l cl ->
  forall hit md, s_single md -> exists h x, comp_ray_loop r t0 cl hit md = Ret (h, x) /\ s_single x /\ B2R x <= B2R md /\
    ((h = hit /\ B2R x = B2R md) \/ (h = true /\ B2R x < B2R md /\ exists a, In a l /\ P a (B2R x))) /\ (forall a s, In a l -> Q a s -> B2R x <= s).
Proof.
  intros A r t0 P Q l cl F. induction F as [|a [ch inv] l cl H F IH]; intros hit md SM.
  - exists hit, md. split; [reflexivity|]. split; auto. split; [lra|]. split; auto. intros ? ? [].
  - cbn [comp_ray_loop]. destruct (single_cast md SM) as [SC EC]. destruct (H (nf32 md) (ndiv n0 n0) SC) as [h [x [E [H1 H2]]]]. cbn [fst snd] in E. rewrite E. cbn [obind]. rewrite EC in H1, H2.
    destruct h.
    + destruct (H1 eq_refl) as [SX [LX PX]]. destruct (IH true x SX) as [h' [x' [E' [S' [L' [C' M']]]]]]. exists h', x'. split; auto. split; auto. split; [lra|]. split.
      * right. destruct C' as [[-> C']|[-> [C1 [b [B1 B2]]]]].
        { split; auto. split; [lra|]. exists a. split; [left; auto|]. rewrite C'. auto. }
        { split; auto. split; [lra|]. exists b. split; [right; auto|]. auto. }
      * intros b s [<-|I] QS; [|eauto]. destruct (Rlt_le_dec s (B2R md)) as [C|C]; [destruct (H2 s QS C); lra|lra].
    + destruct (IH hit md SM) as [h' [x' [E' [S' [L' [C' M']]]]]]. exists h', x'. split; auto. split; auto. split; auto. split.
      * destruct C' as [C'|[C1 [C2 [b [B1 B2]]]]]; auto. right. split; auto. split; auto. exists b. split; [right; auto|auto].
      * intros b s [<-|I] QS; [|eauto]. destruct (Rlt_le_dec s (B2R md)) as [C|C]; [destruct (H2 s QS C); discriminate|lra].
Qed.

Section RayTree.
  Context (rho m : R) (RR : 0 <= rho <= 1 / 100) (RS : rsize m).
  Let RM := rsize_rng m RS.

  Definition rdel : R := del rho m + 7 * m * ddel rho.
  (** the margin at depth k for a ray that starts within E of the exact origin with a direction within Eu of the exact one *)
  Definition margin (k : nat) (E Eu : R) : R := E + 7 * m * Eu + INR k * rdel + slack m.
  Definition ray_ok (k : nat) (M : R) (t : ctree R) (ch : child F64) : Prop := forall p u (o d : vec3 F64) (t0 t1 d0 : F64) E Eu,
    s_finv o -> s_finv d -> s_rangev d -> s_fin t0 -> s_single t1 -> s_norm p <= 2 * m - M -> s_norm u = 1 ->
    (forall q, s_frame t q -> s_skew (2 / 10 ^ 9) (m3mulv (tR (tinverse q)) u)) ->
    s_dist (rv o) p <= E -> s_dist (rv (vnormalized d)) u <= Eu -> E + er rho m k <= m / 100 -> Eu + INR k * ddel rho <= 1 / 10 ^ 9 ->
    let a := margin k E Eu in
    exists hit dist, ch_ray ch (ray_make o d) t0 t1 d0 = Ret (hit, dist) /\
    (hit = true -> s_single dist /\ B2R dist < B2R t1 /\ exists mn mx pose, s_leaf t mn mx pose /\ (exists s, B2R t0 < s /\ s_passes a mn mx pose p u s) /\ s_passes a mn mx pose p u (B2R dist)) /\
    (forall mn mx pose s0 s, s_leaf t mn mx pose -> B2R t0 < s0 -> s_passes (- a) mn mx pose p u s0 -> s_passes (- a) mn mx pose p u s -> s < B2R t1 -> hit = true /\ B2R dist <= s).

  Lemma ddel_pos : 0 <= ddel rho.
  Proof. unfold ddel, uro. lra. Qed.
  Lemma norm1 : forall u, s_norm u = 1 -> s_norm2 u = 1.
  Proof. intros u H. rewrite <- (sqrt_sqrt (s_norm2 u)) by apply norm2_pos. change (sqrt (s_norm2 u)) with (s_norm u). rewrite H. ring. Qed.
  Lemma ray_box : forall k M mn mx, s_finv mn -> s_finv mx -> s_ordered (rv mn) (rv mx) -> s_within M (TBox (rv mn) (rv mx)) -> M <= m -> 0 <= M ->
    ray_ok k M (TBox (rv mn) (rv mx)) (box_child (box_make mn mx)).
  Proof.
    intros k M mn mx F1 F2 O W MM M0 p u o d t0 t1 d0 E Eu FO FD RD F0 S1 NP NU SK DO DU EE EU a. destruct (rng_eta m RM) as [MP _]. inversion W as [? ? ? WN|]; subst.
    assert (CB : s_bound (11 / 10 * m) (rv mn) /\ s_bound (11 / 10 * m) (rv mx)).
    { split; (eapply bound_le; [apply norm_comp|]); (eapply Rle_trans; [apply WN; unfold s_ordered, s_in_box in *; lra|lra]). }
    destruct CB as [CB1 CB2]. pose proof (er_pos rho m RR RM k) as EK. pose proof ddel_pos as DP. pose proof (pos_INR k) as KP. pose proof (del_pos rho m RR RM) as DL.
    assert (0 <= INR k * ddel rho) by (apply Rmult_le_pos; auto).
    assert (AK : 0 <= INR k * rdel). { apply Rmult_le_pos; auto. unfold rdel. assert (0 <= 7 * m * ddel rho) by (apply Rmult_le_pos; lra). lra. }
    pose proof (SK tidentity (fr_here _)) as SK0. rewrite dir_id in SK0.
    destruct (box_near m RS (box_make mn mx) o d t0 t1 d0 p u E Eu F1 F2 FO FD RD F0 (proj1 S1) CB1 CB2 ltac:(lra) O (norm1 u NU) SK0 DO DU ltac:(lra) ltac:(lra) a ltac:(unfold a, margin; lra)) as [hit [dist [ER [H1 H2]]]].
    exists hit, dist. split; [cbn [box_child ch_ray]; rewrite ER; reflexivity|]. split.
    - intros HT. destruct (H1 HT) as [A [B [[s [C C']] D]]]. split; auto. split; auto. exists (rv mn), (rv mx), tidentity. split; [constructor|]. split; [exists s; split; auto|]; apply passes_id; auto.
    - intros mn' mx' pose s0 s L L0 P0 P1 LT. inversion L; subst. apply passes_id in P0, P1. eapply H2; eauto.
  Qed.

  Lemma leaf_region : forall t mn mx pose p, s_leaf t mn mx pose -> s_placed mn mx pose p -> s_in t p.
  Proof. intros t mn mx pose p L P. apply s_in_leaf. eauto. Qed.
  (** the bounding box of a composite is hit by every ray that hits a box of it by the margin *)
  Lemma bb_hit : forall k M l c, finvt rho m k M l c -> M <= m -> 0 <= M ->
    forall p u (o d : vec3 F64) (t0 t1 d0 : F64) E Eu,
    s_finv o -> s_finv d -> s_rangev d -> s_fin t0 -> s_single t1 -> s_norm p <= 2 * m - M -> s_norm u = 1 -> s_skew (2 / 10 ^ 9) u ->
    s_dist (rv o) p <= E -> s_dist (rv (vnormalized d)) u <= Eu -> E + er rho m (S k) <= m / 100 -> Eu <= 1 / 10 ^ 9 ->
    let a := margin (S k) E Eu in
    forall mn mx pose s0 s, s_leaf (TComp l) mn mx pose -> B2R t0 < s0 -> s_passes (- a) mn mx pose p u s0 -> s_passes (- a) mn mx pose p u s -> s < B2R t1 ->
    fst (box_ray (c_bb c) (ray_make o d) t0 t1 d0) = true.
  Proof.
    intros k M l c I MM M0 p u o d t0 t1 d0 E Eu FO FD RD F0 S1 NP NU SK DO DU EE EU a mn mx pose s0 s L L0 P0 P1 LT.
    pose proof (shapes_rigid _ _ _ _ _ _ I) as SR. destruct (rng_eta m RM) as [MP _]. pose proof (del_pos rho m RR RM) as DL. pose proof ddel_pos as DP. pose proof (pos_INR (S k)) as KP.
    pose proof (er_pos rho m RR RM (S k)) as EK. pose proof (dist_pos (rv o) p) as PO. pose proof (dist_pos (rv (vnormalized d)) u) as PU.
    set (ab := E + 7 * m * Eu + slack m).
    assert (AB : 0 <= ab). { unfold ab, slack. assert (0 <= 7 * m * Eu) by (apply Rmult_le_pos; lra). lra. }
    assert (AE : ab + er rho m (S k) <= a).
    { unfold a, margin, ab, er, rdel. assert (0 <= INR (S k) * (7 * m * ddel rho)) by (apply Rmult_le_pos; auto; apply Rmult_le_pos; lra). lra. }
    destruct (fi_soup _ _ _ _ _ _ I) as [sp [cs' [SP1 [SP2 [SP3 SP4]]]]]. destruct (fi_fin _ _ _ _ _ _ I) as [FN FX].
    assert (NE : l <> []) by (inversion L; subst; destruct l; [contradiction|discriminate]). rewrite (fi_bb _ _ _ _ _ _ I NE).
    assert (DEEP : forall x, s_passes (- a) mn mx pose p u x -> s_grown (- ab) (rv (c_min c)) (rv (c_max c)) (s_ray_at p u x)).
    { intros x X. apply deep_grown; auto. intros v V.
      apply (hull_deep (map rv (s_corners sp)) cs' _ _ (er rho m (S k)) ab (s_ray_at p u x)); auto.
      - eapply corners_dist; eauto.
      - intros q Q. apply in_map_iff in Q. destruct Q as [y [<- Y]]. auto.
      - intros w W. apply SP3. eapply (in_ball a); [eapply passes_by; eauto| |lra]. constructor. auto. }
    pose proof (DEEP _ P0) as N0. pose proof (DEEP _ P1) as N1.
    destruct (fi_far _ _ _ _ _ _ I) as [[G1 [G2 G3]] [G4 [G5 G6]]].
    set (lo := rv (c_min c)) in *. set (hi := rv (c_max c)) in *.
    change (B2R (vx (c_min c))) with (vx lo) in G1. change (B2R (vy (c_min c))) with (vy lo) in G2. change (B2R (vz (c_min c))) with (vz lo) in G3.
    change (B2R (vx (c_max c))) with (vx hi) in G4. change (B2R (vy (c_max c))) with (vy hi) in G5. change (B2R (vz (c_max c))) with (vz hi) in G6.
    pose proof N0 as N0'. unfold s_grown, s_in_box in N0'. cbn [vx vy vz] in N0'.
    destruct (box_near m RS (box_make (c_min c) (c_max c)) o d t0 t1 d0 p u E Eu) with (a := ab) as [hit [dist [ER [_ H2]]]]; auto; cbn [box_make b_min b_max]; fold lo hi.
    - exact (proj1 S1).
    - repeat split; apply Rabs_le; lra.
    - repeat split; apply Rabs_le; lra.
    - lra.
    - unfold s_ordered. lra.
    - apply norm1; auto.
    - lra.
    - unfold ab. lra.
    - rewrite ER. cbn [fst]. cbn [box_make b_min b_max] in H2. fold lo hi in H2. apply (H2 s0 s); auto.
  Qed.

  Lemma ray_comp : forall k M l c, finvt rho m k M l c -> M <= m -> 0 <= M -> Forall2 (fun tp ci => ray_ok k (M - s_norm (MathTypes.tt (snd tp))) (fst tp) (fst ci)) l (c_shapes c) ->
    ray_ok (S k) M (TComp l) (comp_child c).
  Proof.
    intros k M l c I MM M0 RO p u o d t0 t1 d0 E Eu FO FD RD F0 S1 NP NU SK DO DU EE EU a.
    pose proof (shapes_rigid _ _ _ _ _ _ I) as SR. destruct (rng_eta m RM) as [MP _]. pose proof (del_pos rho m RR RM) as DL. pose proof ddel_pos as DP.
    pose proof (er_pos rho m RR RM k) as EK. pose proof (pos_INR k) as KP. pose proof (dist_pos (rv o) p) as PO. pose proof (dist_pos (rv (vnormalized d)) u) as PU.
    rewrite S_INR in EU. rewrite er_S in EE. assert (KD : 0 <= INR k * ddel rho) by (apply Rmult_le_pos; auto).
    assert (EA : forall x, x = k -> margin x (E + del rho m) (Eu + ddel rho) = a). { intros x ->. unfold a, margin, rdel. rewrite S_INR. ring. }
    set (P := fun (tp : ctree R * trans3 R) (x : R) => exists mn mx q, s_leaf (fst tp) mn mx q /\ (exists s, B2R t0 < s /\ s_passes a mn mx (tmul (snd tp) q) p u s) /\ s_passes a mn mx (tmul (snd tp) q) p u x).
    set (Q := fun (tp : ctree R * trans3 R) (x : R) => exists mn mx q s0, s_leaf (fst tp) mn mx q /\ B2R t0 < s0 /\ s_passes (- a) mn mx (tmul (snd tp) q) p u s0 /\ s_passes (- a) mn mx (tmul (snd tp) q) p u x).
    assert (CH : Forall2 (fun tp ci => forall md d0 : F64, s_single md -> exists h x,
      ch_ray (fst ci) (ray_make (tapply (snd ci) o) (m3mulv (tR (snd ci)) (vnormalized d))) t0 md d0 = Ret (h, x) /\
      (h = true -> s_single x /\ B2R x < B2R md /\ P tp (B2R x)) /\ (forall s, Q tp s -> s < B2R md -> h = true /\ B2R x <= s)) l (c_shapes c)).
    { pose proof (fi_shapes _ _ _ _ _ _ I) as FS. assert (FR : forall tp, In tp l -> forall q, s_frame (fst tp) q -> s_skew (2 / 10 ^ 9) (m3mulv (tR (tinverse q)) (m3mulv (tR (tinverse (snd tp))) u))).
      { intros [t pose] IN q H. rewrite <- dir_frame. apply SK. econstructor; eauto. }
      clear I SK SR. revert FS FR. induction RO as [|[t pose'] [ch inv] l' cl RK RO IH]; intros FS FR; [constructor|].
      inversion FS as [|? ? ? ? [pose [PO' [BT [EI _]]]] FS']; subst. constructor; [|apply IH; auto; intros; apply FR; auto; right; auto]. cbn [fst snd] in *. subst inv. intros md d1 SM.
      assert (RG : rigid pose') by apply PO'. assert (RGI := rigid_inverse _ RG).
      destruct (inv_step rho m RR RM pose pose' PO' BT o p E FO DO ltac:(lra) ltac:(lra)) as [FO' DO'].
      destruct (dir_step rho RR pose pose' d u Eu PO' FD RD DU) as [FD' [RD' DU']].
      destruct (RK (tapply (tinverse pose') p) (m3mulv (tR (tinverse pose')) u) (tapply (tinverse pose) o) (m3mulv (tR (tinverse pose)) (vnormalized d)) t0 md d1 (E + del rho m) (Eu + ddel rho)) as [h [x [E1 [H1 H2]]]]; auto.
      - pose proof (inv_norm pose' p RG). lra.
      - rewrite dir_norm; auto.
      - apply (FR (t, pose') (or_introl eq_refl)).
      - lra.
      - lra.
      - rewrite (EA k eq_refl) in H1, H2. exists h, x. split; auto. split.
        + intros HT. destruct (H1 HT) as [A [B [mn [mx [q [C [[s [D D']] F]]]]]]]. split; auto. split; auto. exists mn, mx, q. cbn [fst snd]. split; auto. split; [exists s; split; auto|]; apply passes_frame; auto.
        + intros s [mn [mx [q [s0 [C [D [F G]]]]]]] LT. cbn [fst snd] in *. apply passes_frame in F, G; auto. eapply H2; eauto. }
    destruct (ray_loop _ (ray_make o d) t0 P Q l (c_shapes c) CH false t1 S1) as [h [x [EL [SX [LX [C1 C2]]]]]].
    cbn [comp_child ch_ray]. unfold comp_ray. destruct (box_ray (c_bb c) (ray_make o d) t0 t1 d0) as [hb db] eqn:EB.
    assert (SOUND : h = true -> s_single x /\ B2R x < B2R t1 /\ exists mn mx pose, s_leaf (TComp l) mn mx pose /\ (exists s, B2R t0 < s /\ s_passes a mn mx pose p u s) /\ s_passes a mn mx pose p u (B2R x)).
    { intros HT. destruct C1 as [[C1 _]|[_ [C1 [[t pose] [IN [mn [mx [q [A [B C]]]]]]]]]]; [congruence|]. split; auto. split; auto. cbn [fst snd] in *. exists mn, mx, (tmul pose q). split; [econstructor; eauto|]. auto. }
    assert (FULL : forall mn mx pose s0 s, s_leaf (TComp l) mn mx pose -> B2R t0 < s0 -> s_passes (- a) mn mx pose p u s0 -> s_passes (- a) mn mx pose p u s -> s < B2R t1 -> h = true /\ B2R x <= s).
    { intros mn mx pose s0 s L L0 P0 P1 LT. inversion L as [|? t pose' ? ? q IN L']; subst.
      assert (XS : B2R x <= s). { apply (C2 (t, pose')); auto. exists mn, mx, q, s0. auto. } split; auto. destruct C1 as [[_ C1]|[C1 _]]; auto. lra. }
    destruct hb; cbn [negb].
    - rewrite EL. cbn [obind]. destruct h.
      + exists true, x. split; auto.
      + exists false, db. split; auto. split; [discriminate|]. intros mn mx pose s0 s L L0 P0 P1 LT. destruct (FULL mn mx pose s0 s L L0 P0 P1 LT). discriminate.
    - exists false, db. split; auto. split; [discriminate|]. intros mn mx pose s0 s L L0 P0 P1 LT. exfalso.
      assert (H : fst (box_ray (c_bb c) (ray_make o d) t0 t1 d0) = true).
      { eapply (bb_hit k M l c I MM M0 p u o d t0 t1 d0 E Eu); eauto; [|rewrite er_S; lra|lra]. pose proof (SK tidentity (fr_here _)) as SK0. rewrite dir_id in SK0. exact SK0. }
      rewrite EB in H. discriminate.
  Qed.

  Lemma add_shapes : forall (c : comp F64) ch pose c', comp_add c ch pose = Ret c' -> c_shapes c' = c_shapes c ++ [(ch, tinverse pose)].
  Proof.
    intros c ch pose c' H. unfold comp_add in H. destruct (getTriangles (ch_mesh ch)) as [tm| | |]; cbn [obind] in H; try discriminate.
    destruct (fold_left (comp_tri pose) (fst tm) (c_r c, c_min c, c_max c)) as [[r mn] mx]. injection H as <-. reflexivity.
  Qed.
  Theorem rbuild : forall t' t k M, s_drawn rho t t' -> s_depth k t' -> s_within M t' -> M <= m -> er rho m k <= m / 100 -> (N.of_nat (8 * s_nboxes t') < 2^32)%N ->
    exists ch, build t = Ret ch /\ fbuilt rho m k M t' ch /\ ray_ok k M t' ch.
  Proof.
    induction t' as [mn mx|l' IH] using ctree_ind'; intros t k M DR DP W MM EK S.
    - assert (M0 := within_pos rho _ _ _ DR W). inversion DR; subst. eexists. split; [reflexivity|]. split; [apply fbuilt_box; auto|apply ray_box; auto].
    - assert (M0 := within_pos rho _ _ _ DR W). inversion DR as [|l ? F]; subst. inversion DP as [|k' ? DPL]; subst. inversion W as [|? ? _ WL]; subst.
      assert (EK' : er rho m k' <= m / 100) by (rewrite er_S in EK; pose proof (del_pos rho m RR RM); lra).
      assert (K : forall l2 l2', Forall2 (fun a b => s_drawn rho (fst a) (fst b) /\ s_pose_of rho (snd a) (snd b)) l2 l2' -> forall l1 c, l' = l1 ++ l2' -> finvt rho m k' M l1 c ->
        Forall2 (fun tp ci => ray_ok k' (M - s_norm (MathTypes.tt (snd tp))) (fst tp) (fst ci)) l1 (c_shapes c) ->
        exists c', build_list l2 c = Ret c' /\ finvt rho m k' M l' c' /\ Forall2 (fun tp ci => ray_ok k' (M - s_norm (MathTypes.tt (snd tp))) (fst tp) (fst ci)) l' (c_shapes c')).
      { induction 1 as [|[t pose] [t' pose'] l2 l2' [D1 D2] F2 IH2]; intros l1 c E I RO.
        - exists c. rewrite app_nil_r in E. subst. auto.
        - cbn [fst snd] in *. assert (IN : In (t', pose') l') by (rewrite E; apply in_or_app; right; left; auto).
          assert (NB : (s_nboxes (TComp (l1 ++ [(t', pose')])) <= s_nboxes (TComp l'))%nat).
          { rewrite E. replace (l1 ++ (t', pose') :: l2') with ((l1 ++ [(t', pose')]) ++ l2') by (rewrite <- app_assoc; auto).
            rewrite (nboxes_app (l1 ++ [(t', pose')])). lia. }
          assert (NT : (s_nboxes t' <= s_nboxes (TComp (l1 ++ [(t', pose')])))%nat).
          { rewrite nboxes_app. cbn [s_nboxes]. lia. }
          pose proof (sqrt_pos (s_dot (MathTypes.tt pose') (MathTypes.tt pose'))) as NP. fold (s_norm (MathTypes.tt pose')) in NP.
          pose proof (within_pos rho _ _ _ D1 (WL _ _ IN)) as MC.
          destruct (IH t' pose' IN t k' (M - s_norm (MathTypes.tt pose')) D1 (DPL _ _ IN) (WL _ _ IN)) as [ch [EB [B RB]]]; [lra|auto|lia|].
          assert (BT : s_bound m (rv (MathTypes.tt pose))). { destruct D2 as [_ [_ [_ [ET _]]]]. rewrite <- ET. eapply bound_le; [apply norm_comp|]. lra. }
          destruct (fadd rho m RR RM k' M l1 c t' ch pose pose' I D2 BT MM EK B) as [c' [EC I']]; [lia|].
          destruct (IH2 (l1 ++ [(t', pose')]) c') as [c'' [E'' I'']]; auto.
          { rewrite <- app_assoc. auto. }
          { rewrite (add_shapes _ _ _ _ EC). apply Forall2_app; auto. }
          exists c''. split; auto. cbn [build_list]. rewrite EB. cbn [obind]. rewrite EC. cbn [obind]. exact E''. }
      destruct (K l l' F [] comp_new eq_refl (fnew rho m RM k' M)) as [c [E [I RO]]]; [constructor|].
      exists (comp_child c). split; [|split; [apply fbuilt_comp; auto|apply ray_comp; auto]].
      change (build (TComp l)) with (let* c := build_list l comp_new in Ret (comp_child c)). rewrite E. reflexivity.
  Qed.
End RayTree.
