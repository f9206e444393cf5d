(** Composite shapes on doubles, part 4: trees of any depth *)
From Coq Require Import ZArith NArith List Bool Lia Reals Lra Psatz.
From Flocq Require Import Core BinarySingleNaN.
From Verif Require Import Num NumOrd MathTypes Outcome Mesh Box Composite Spec SpecComposite SpecRound SpecCompF P_Tac P_Math P_Rot P_Mesh P_MeshGeo P_Box P_BoxMesh P_Composite.
From Verif Require Import P_Round P_Round2 P_Round3 P_OctF P_InsideF P_CompF1 P_CompF2 P_CompF3.
Import ListNotations.
Local Open Scope R_scope.
Local Notation fin := (is_finite (prec := 53) (emax := 1024)).

Lemma sphere0 : forall (T : Type) (NT : Num T) (b : box T) p r, nleb r n0 = true -> box_sphere b p r = box_contains b p.
Proof. intros T NT b p r H. unfold box_sphere. rewrite H. reflexivity. Qed.
Lemma oany_ext : forall (A : Type) (f g : A -> outcome bool) l, Forall (fun a => f a = g a) l -> oany f l = oany g l.
Proof. induction 1 as [|a l E F IH]; auto. cbn [oany]. rewrite E. destruct (g a) as [[|]| | |]; cbn [obind]; auto. Qed.
(** containment and ball test of a composite, given a decision for its bounding box and bounds for its children *)
Lemma flow : forall (T A : Type) (NT : Num T) (c : comp T) (f : child T * trans3 T -> outcome bool) (bb : bool) (l : list A) (P Q : A -> Prop),
  Forall2 (fun tp ci => exists b, f ci = Ret b /\ (b = true -> P tp) /\ (Q tp -> b = true)) l (c_shapes c) ->
  ((exists tp, In tp l /\ Q tp) -> bb = true) ->
  exists b, (if negb bb then Ret false else oany f (c_shapes c)) = Ret b /\ (b = true -> exists tp, In tp l /\ P tp) /\ ((exists tp, In tp l /\ Q tp) -> b = true).
Proof.
  intros T A NT c f bb l P Q F H. destruct (poany A f P Q l (c_shapes c) F) as [b [E [B1 B2]]]. destruct bb; cbn [negb].
  - exists b. auto.
  - exists false. split; auto. split; [discriminate|]. exact H.
Qed.

Section Tree.
  Context (rho m : R) (RR : 0 <= rho <= 1 / 100) (RM : rng m).

  Definition th : R := 40 * uro * m.
  Definition er (k : nat) : R := INR k * del rho m.
  Lemma er_S : forall k, er (S k) = er k + del rho m.
  Proof. intros. unfold er. rewrite S_INR. ring. Qed.
  Lemma er_pos : forall k, 0 <= er k.
  Proof. intros. unfold er. apply Rmult_le_pos; [apply pos_INR|apply del_pos; auto]. Qed.
  Definition corners_ok (E M : R) (cs : list (vec3 F64)) (cs' : list (vec3 R)) : Prop :=
    Forall2 (fun q q' => s_finv q /\ s_dist (rv q) q' <= E /\ s_norm q' <= M) cs cs'.

  Record fbuilt (k : nat) (M : R) (t : ctree R) (ch : child F64) : Prop := {
    fb_rigid : all_rigid t;
    fb_c : forall p (v : vec3 F64) E, s_finv v -> s_dist (rv v) p <= E -> E + er k <= m / 100 -> s_norm p <= 2 * m - M ->
      exists b, ch_contains ch v = Ret b /\ (b = true -> s_in_by (E + er k) t p) /\ (s_in_by (- (E + er k)) t p -> b = true);
    fb_b : forall p (v : vec3 F64) E (r : F64), s_finv v -> s_dist (rv v) p <= E -> E + er k <= m / 100 -> s_norm p <= 2 * m - M ->
      s_fin r -> 0 < B2R r -> B2R r <= bpow radix2 400 ->
      exists b, ch_sphere ch v r = Ret b /\
        (b = true -> exists q, s_in t q /\ s_dist p q <= (1 + 10 * uro) * B2R r + (E + 2 * er k + th)) /\
        ((exists q, s_in t q /\ s_dist p q <= (1 - 10 * uro) * B2R r - (E + 2 * er k + th)) -> b = true);
    fb_0 : forall v r, nleb r n0 = true -> ch_sphere ch v r = ch_contains ch v;
    fb_cache : cache_inv (ch_mesh ch);
    fb_size : length (m_points (ch_mesh ch)) = (8 * s_nboxes t)%nat;
    fb_soup : exists l cs', psoup (ch_mesh ch) = Some l /\ corners_ok (er k) M (s_corners l) cs' /\ forall p, s_in t p -> s_hull cs' p
  }.

  Lemma fbuilt_box : forall k M mn mx, s_finv mn -> s_finv mx -> s_ordered (rv mn) (rv mx) -> s_within M (TBox (rv mn) (rv mx)) -> M <= m ->
    fbuilt k M (TBox (rv mn) (rv mx)) (box_child (box_make mn mx)).
  Proof.
    intros k M mn mx F1 F2 O W MM. destruct (rng_eta m RM) as [MP _]. inversion W as [? ? ? WN|]; subst. pose proof (er_pos k) as EK.
    assert (CB : s_bound (11 / 10 * m) (rv mn) /\ s_bound (11 / 10 * m) (rv mx)).
    { split; (eapply bound_le; [apply norm_comp|]); (eapply Rle_trans; [apply WN; unfold s_ordered, s_in_box in *; lra|lra]). }
    destruct CB as [CB1 CB2]. constructor.
    - constructor.
    - intros p v E FV D _ _. eexists. split; [reflexivity|]. rewrite (boxc_F (box_make mn mx) v F1 F2 FV). cbn [box_make b_min b_max].
      apply dist_comp in D. destruct D as [D1 [D2 D3]]. apply Rabs_le_inv in D1, D2, D3. split.
      + intros H. constructor. unfold s_in_box in *. cbn [vx vy vz] in *. lra.
      + intros H. inversion H as [? ? ? HB|]; subst. unfold s_in_box in *. cbn [vx vy vz] in *. lra.
    - intros p v E r FV D EE NP FR R1 R2. eexists. split; [reflexivity|]. pose proof (norm_dist (rv v) p) as ND. pose proof (dist_pos (rv v) p) as DP.
      assert (M0 : 0 <= M). { pose proof (sqrt_pos (s_dot (rv mn) (rv mn))) as X. assert (s_norm (rv mn) <= M) by (apply WN; unfold s_ordered, s_in_box in *; lra). unfold s_norm in *. lra. }
      assert (BV : s_bound (22 / 10 * m) (rv v)) by (eapply bound_le; [apply norm_comp|lra]). split.
      + intros H. destruct (ball_sound m RM (box_make mn mx) v r F1 F2 FV FR CB1 CB2 BV R1 R2 O H) as [q [I DQ]]. exists q. split; [constructor; auto|].
        pose proof (dist_tri p (rv v) q) as T. rewrite (dist_sym p (rv v)) in T. unfold th. lra.
      + intros [q [I DQ]]. inversion I; subst. apply (ball_complete m RM (box_make mn mx) v r F1 F2 FV FR CB1 CB2 BV R1 R2 O). exists q. split; auto.
        pose proof (dist_tri (rv v) p q) as T. unfold th in DQ. lra.
    - intros v r H. cbn [box_child ch_sphere ch_contains]. rewrite sphere0; auto.
    - apply pgen_cache.
    - cbn [box_child ch_mesh]. rewrite box_make_points. reflexivity.
    - exists (boxsoup mn mx), (map rv (s_corners (boxsoup mn mx))). cbn [box_child ch_mesh]. split; [apply pbox_soup|]. split.
      + unfold corners_ok. assert (G : forall q, In q (s_corners (boxsoup mn mx)) -> s_finv q /\ s_norm (rv q) <= M).
        { intros q I. split; [exact (corner_fin mn mx q F1 F2 I)|]. apply WN. apply corner_in; auto. rewrite boxsoup_rv. apply in_map. auto. }
        revert G. generalize (s_corners (boxsoup mn mx)). induction l as [|q l IH]; intros G; [constructor|]. cbn [map]. constructor.
        * destruct (G q (or_introl eq_refl)). rewrite dist_self. auto.
        * apply IH. intros; apply G; right; auto.
      + intros p I. inversion I; subst. rewrite <- boxsoup_rv. apply (box_hull (rv mn) (rv mx) (boxsoup (rv mn) (rv mx))); auto.
  Qed.

  (** state after some addShape calls; k is the depth of the children, M the radius of the composite *)
  Record finvt (k : nat) (M : R) (l : list (ctree R * trans3 R)) (c : comp F64) : Prop := {
    fi_shapes : Forall2 (fun tp ci => exists pose, s_pose_of rho pose (snd tp) /\ s_bound m (rv (MathTypes.tt pose)) /\ snd ci = tinverse pose /\
                   fbuilt k (M - s_norm (MathTypes.tt (snd tp))) (fst tp) (fst ci)) l (c_shapes c);
    fi_cache : cache_inv (c_mesh c);
    fi_size : length (m_points (c_mesh c)) = (8 * s_nboxes (TComp l))%nat;
    fi_fin : s_finv (c_min c) /\ s_finv (c_max c);
    fi_far : (- (11 / 10 * m) <= B2R (vx (c_min c)) /\ - (11 / 10 * m) <= B2R (vy (c_min c)) /\ - (11 / 10 * m) <= B2R (vz (c_min c))) /\
             (B2R (vx (c_max c)) <= 11 / 10 * m /\ B2R (vy (c_max c)) <= 11 / 10 * m /\ B2R (vz (c_max c)) <= 11 / 10 * m);
    fi_soup : exists s cs', psoup (c_mesh c) = Some s /\ corners_ok (er (S k)) M (s_corners s) cs' /\ (forall p, s_in (TComp l) p -> s_hull cs' p) /\
              (forall q, In q (s_corners s) -> s_in_box (rv (c_min c)) (rv (c_max c)) (rv q));
    fi_bb : l <> [] -> c_bb c = box_make (c_min c) (c_max c)
  }.
  Lemma fnew : forall k M, finvt k M [] comp_new.
  Proof.
    intros k M. destruct (rng_eta m RM) as [MP _].
    assert (H : exists h : F64, h = nofZ 10000000000 /\ fin h = true /\ B2R h = 10000000000) by (exists (nofZ 10000000000); destruct (ofZ_R 10000000000) as [F E]; [reflexivity|auto]).
    destruct H as [h [EH [F E]]]. destruct (opp_R h F) as [F' E']. 
    constructor; unfold comp_new; cbn [c_shapes c_mesh c_min c_max]; rewrite <- ?EH.
    - constructor.
    - apply new_inv.
    - reflexivity.
    - split; (split; [|split]); auto.
    - cbn [vx vy vz]. rewrite E in E'. assert (X : B2R (nopp h) <= 11 / 10 * m) by (eapply Rle_trans; [right; exact E'|lra]). assert (Y : - (11 / 10 * m) <= B2R h) by lra. auto 10.
    - exists [], []. split; [reflexivity|]. split; [constructor|]. split; [|intros ? []]. intros p H. inversion H; subst. contradiction.
    - congruence.
  Qed.
  Lemma corners_fwd : forall k M pose pose' cs cs', s_pose_of rho pose pose' -> s_bound m (rv (MathTypes.tt pose)) -> M <= m -> er k <= m / 100 -> 
    corners_ok (er k) (M - s_norm (MathTypes.tt pose')) cs cs' -> corners_ok (er (S k)) M (map (tapply pose) cs) (map (tapply pose') cs').
  Proof.
    intros k M pose pose' cs cs' P BT MM EK F. destruct (rng_eta m RM) as [MP _]. rewrite er_S. induction F as [|q q' cs cs' [A [B C]] F IH]; cbn [map]; constructor; auto.
    pose proof (sqrt_pos (s_dot (MathTypes.tt pose') (MathTypes.tt pose'))) as NP. fold (s_norm (MathTypes.tt pose')) in NP.
    destruct (fwd_step rho m RR RM pose pose' P BT q q' (er k) A B EK ltac:(lra)) as [X Y]. split; auto. split; auto.
    pose proof (fwd_norm pose' q' ltac:(apply P)). lra.
  Qed.
  Lemma corners_fin : forall E M cs cs' q, corners_ok E M cs cs' -> In q cs -> s_finv q /\ s_bound (M + E) (rv q).
  Proof.
    intros E M cs cs' q F. induction F as [|a a' cs cs' [A [B C]] F IH]; intros I; [destruct I|]. destruct I as [<-|I]; auto. split; auto.
    eapply bound_le; [apply norm_comp|]. pose proof (norm_dist (rv a) a'). lra.
  Qed.
  Lemma fadd : forall k M l c t ch pose pose', finvt k M l c -> s_pose_of rho pose pose' -> s_bound m (rv (MathTypes.tt pose)) -> M <= m -> er (S k) <= m / 100 ->
    fbuilt k (M - s_norm (MathTypes.tt pose')) t ch -> (N.of_nat (8 * s_nboxes (TComp (l ++ [(t, pose')]))) < 2^32)%N ->
    exists c', comp_add c ch pose = Ret c' /\ finvt k M (l ++ [(t, pose')]) c'.
  Proof.
    intros k M l c t ch pose pose' [I1 I2 I3 [I4 I5] [IF1 IF2] [s [cs' [S1 [S2 [S3 S4]]]]] I6] P BT MM EK B SZ.
    destruct (fb_soup _ _ _ _ B) as [lch [cch [L1 [L2 L3]]]].
    assert (SZ' : (N.of_nat (length (m_points (c_mesh c)) + length (m_points (ch_mesh ch))) < 2^32)%N).
    { rewrite I3, (fb_size _ _ _ _ B). rewrite nboxes_app in SZ. cbn [s_nboxes] in SZ. cbn [s_nboxes]. lia. }
    destruct (padd c ch pose s lch S1 L1 (fb_cache _ _ _ _ B) SZ') as [c' [E [E1 [E2 [E3 [E4 [E5 E6]]]]]]].
    cbv zeta in E5. destruct E5 as [EMN EMX]. destruct (rng_eta m RM) as [MP _]. pose proof (del_pos rho m RR RM) as DP.
    assert (EK' : er k <= m / 100) by (rewrite er_S in EK; lra).
    assert (CF := corners_fwd k M pose pose' _ _ P BT MM EK' L2). set (cs := map (tapply pose) (s_corners lch)) in *.
    assert (FIN : forall q, In q cs -> (fin (vx q) = true /\ fin (vy q) = true /\ fin (vz q) = true) /\ s_bound (11 / 10 * m) (rv q)).
    { intros q Q. destruct (corners_fin _ _ _ _ q CF Q) as [A A']. split; [exact A|]. eapply bound_le; [exact A'|]. lra. }
    destruct I4 as [N1 [N2 N3]], I5 as [X1 [X2 X3]], IF1 as [G1 [G2 G3]], IF2 as [G4 [G5 G6]]. unfold s_fin in *.
    destruct (pmin_F vx cs (vx (c_min c)) N1) as [A1 [B1 [C1 D1]]]; [intros q Q; apply FIN; auto|]. destruct (pmin_F vy cs (vy (c_min c)) N2) as [A2 [B2 [C2 D2]]]; [intros q Q; apply FIN; auto|].
    destruct (pmin_F vz cs (vz (c_min c)) N3) as [A3 [B3 [C3 D3]]]; [intros q Q; apply FIN; auto|]. destruct (pmax_F vx cs (vx (c_max c)) X1) as [A4 [B4 [C4 D4]]]; [intros q Q; apply FIN; auto|].
    destruct (pmax_F vy cs (vy (c_max c)) X2) as [A5 [B5 [C5 D5]]]; [intros q Q; apply FIN; auto|]. destruct (pmax_F vz cs (vz (c_max c)) X3) as [A6 [B6 [C6 D6]]]; [intros q Q; apply FIN; auto|].
    assert (BQ : forall q, In q cs -> (- (11 / 10 * m) <= B2R (vx q) <= 11 / 10 * m) /\ (- (11 / 10 * m) <= B2R (vy q) <= 11 / 10 * m) /\ (- (11 / 10 * m) <= B2R (vz q) <= 11 / 10 * m)).
    { intros q Q. destruct (FIN q Q) as [_ [Y1 [Y2 Y3]]]. cbn [rv vx vy vz] in Y1, Y2, Y3. apply Rabs_le_inv in Y1, Y2, Y3. auto. }
    exists c'. split; auto. constructor; auto.
    - rewrite E1. apply Forall2_app; auto. constructor; [|constructor]. exists pose. cbn [fst snd]. auto.
    - rewrite E4, I3, (fb_size _ _ _ _ B), nboxes_app. cbn [s_nboxes]. lia.
    - rewrite EMN, EMX. unfold s_finv, s_fin. cbn [vx vy vz]. auto 10.
    - rewrite EMN, EMX. cbn [vx vy vz]. split; (split; [|split]); first [apply D1|apply D2|apply D3|apply D4|apply D5|apply D6]; auto; intros q Q; apply BQ; auto.
    - exists (s ++ pmap3 (tapply pose) lch), (cs' ++ map (tapply pose') cch). split; auto. rewrite pcorners_app, pcorners_map3. fold cs. split; [apply Forall2_app; auto|]. split.
      + intros p IP. inversion IP as [|? t' pose0 q I Q]; subst. apply in_app_or in I. destruct I as [I|[I|[]]].
        * apply (hull_incl cs'); [apply incl_appl, incl_refl|]. apply S3. econstructor; eauto.
        * injection I as <- <-. eapply hull_incl; [apply incl_appr, incl_refl|]. apply hull_map. auto.
      + rewrite EMN, EMX. intros q Q. apply in_app_or in Q. destruct Q as [Q|Q].
        * specialize (S4 q Q). unfold s_in_box, rv in *. cbn [vx vy vz] in *. lra.
        * specialize (C1 q Q). specialize (C2 q Q). specialize (C3 q Q). specialize (C4 q Q). specialize (C5 q Q). specialize (C6 q Q). unfold s_in_box, rv. cbn [vx vy vz]. lra.
  Qed.

  Lemma shapes_rigid : forall k M l c, finvt k M l c -> forall t pose, In (t, pose) l -> all_rigid t /\ rigid pose.
  Proof.
    intros k M l c [F _ _ _ _ _ _]. induction F as [|[t' p'] ci l' cl [pose' [P [_ [_ B]]]] F IH]; intros t pose H; [contradiction|].
    destruct H as [[= -> ->]|H]; eauto. cbn [fst snd] in *. split; [apply (fb_rigid _ _ _ _ B)|apply P].
  Qed.
  Lemma corners_dist : forall E M cs cs', corners_ok E M cs cs' -> Forall2 (fun q q' => s_dist q q' <= E) (map rv cs) cs'.
  Proof. intros E M cs cs' F. induction F as [|q q' cs cs' [A [B C]] F IH]; cbn [map]; constructor; auto. Qed.
  Lemma comp_c : forall k M l c, finvt k M l c -> M <= m ->
    forall p (v : vec3 F64) E, s_finv v -> s_dist (rv v) p <= E -> E + er (S k) <= m / 100 -> s_norm p <= 2 * m - M -> 0 <= M ->
    exists b, comp_contains c v = Ret b /\ (b = true -> s_in_by (E + er (S k)) (TComp l) p) /\ (s_in_by (- (E + er (S k))) (TComp l) p -> b = true).
  Proof.
    intros k M l c I MM p v E FV D EE NP M0. pose proof (shapes_rigid _ _ _ _ I) as SR. pose proof (er_pos k) as EK. pose proof (dist_pos (rv v) p) as DP. pose proof (er_pos (S k)) as EK'.
    pose proof (del_pos rho m RR RM) as DL.
    assert (RI : forall t pose, In (t, pose) l -> rigid pose) by (intros t pose H; apply (SR _ _ H)).
    unfold comp_contains.
    match goal with |- exists b, ?X = _ /\ _ => cut (exists b, X = Ret b /\ (b = true -> exists tp, In tp l /\ s_in_by (E + er (S k)) (fst tp) (tapply (tinverse (snd tp)) p)) /\ ((exists tp, In tp l /\ s_in_by (- (E + er (S k))) (fst tp) (tapply (tinverse (snd tp)) p)) -> b = true)) end.
    { intros [b [X [Y Z]]]. exists b. split; [exact X|]. split; intros H; [apply (by_comp_iff _ l p RI); auto|apply Z, (by_comp_iff _ l p RI); auto]. }
    refine (flow _ _ _ c _ (box_contains (c_bb c) v) l (fun tp => s_in_by (E + er (S k)) (fst tp) (tapply (tinverse (snd tp)) p)) (fun tp => s_in_by (- (E + er (S k))) (fst tp) (tapply (tinverse (snd tp)) p)) _ _).
    - eapply Forall2_impl'; [|apply (fi_shapes _ _ _ _ I)]. intros [t pose'] [ch inv] IN [pose [P [BT [EI B]]]]. cbn [fst snd] in *. subst inv.
      destruct (inv_step rho m RR RM pose pose' P BT v p E FV D ltac:(lra) ltac:(lra)) as [F1 D1]. rewrite er_S in *. replace (E + (er k + del rho m)) with (E + del rho m + er k) in * by ring.
      apply (fb_c _ _ _ _ B); auto. pose proof (inv_norm pose' p ltac:(apply P)). lra.
    - intros H. apply (by_comp_iff _ l p RI) in H. destruct (fi_soup _ _ _ _ I) as [s [cs' [S1 [S2 [S3 S4]]]]]. destruct (fi_fin _ _ _ _ I) as [FN FX].
      assert (NE : l <> []) by (inversion H; subst; destruct l; [contradiction|discriminate]). rewrite (fi_bb _ _ _ _ I NE). rewrite (boxc_F (box_make (c_min c) (c_max c)) v FN FX FV). cbn [box_make b_min b_max].
      apply (hull_deep (map rv (s_corners s)) cs' _ _ (er (S k)) E p); auto.
      + eapply corners_dist; eauto.
      + intros q Q. apply in_map_iff in Q. destruct Q as [x [<- X]]. auto.
      + intros w W. apply S3. eapply (in_ball (E + er (S k))); eauto. constructor. auto.
      + lra.
  Qed.
  Lemma comp_b : forall k M l c, finvt k M l c -> M <= m ->
    forall p (v : vec3 F64) E (r : F64), s_finv v -> s_dist (rv v) p <= E -> E + er (S k) <= m / 100 -> s_norm p <= 2 * m - M -> 0 <= M ->
    s_fin r -> 0 < B2R r -> B2R r <= bpow radix2 400 ->
    exists b, comp_sphere c v r = Ret b /\
      (b = true -> exists q, s_in (TComp l) q /\ s_dist p q <= (1 + 10 * uro) * B2R r + (E + 2 * er (S k) + th)) /\
      ((exists q, s_in (TComp l) q /\ s_dist p q <= (1 - 10 * uro) * B2R r - (E + 2 * er (S k) + th)) -> b = true).
  Proof.
    intros k M l c I MM p v E r FV D EE NP M0 FR R1 R2. pose proof (shapes_rigid _ _ _ _ I) as SR. pose proof (er_pos k) as EK. pose proof (dist_pos (rv v) p) as DP. pose proof (er_pos (S k)) as EK'.
    pose proof (del_pos rho m RR RM) as DL. destruct (rng_eta m RM) as [MP _].
    assert (RI : forall t pose, In (t, pose) l -> rigid pose) by (intros t pose H; apply (SR _ _ H)).
    assert (IFF : forall z, (exists q, s_in (TComp l) q /\ s_dist p q <= z) <-> exists tp, In tp l /\ exists q, s_in (fst tp) q /\ s_dist (tapply (tinverse (snd tp)) p) q <= z).
    { intros z. split.
      - intros [q [Q1 Q2]]. inversion Q1 as [|? t pose y IN Y]; subst. exists (t, pose). split; auto. exists y. split; auto. cbn [snd]. rewrite <- (rigid_dist pose), tapply_inverse; eauto.
      - intros [[t pose] [IN [q [Q1 Q2]]]]. cbn [fst snd] in *. exists (tapply pose q). split; [econstructor; eauto|]. rewrite <- (rigid_dist pose), tapply_inverse in Q2; eauto. }
    unfold comp_sphere.
    match goal with |- exists b, ?X = _ /\ (_ -> exists q, _ /\ _ <= ?u) /\ ((exists q, _ /\ _ <= ?w) -> _) => cut (exists b, X = Ret b /\ (b = true -> exists tp, In tp l /\ exists q, s_in (fst tp) q /\ s_dist (tapply (tinverse (snd tp)) p) q <= u) /\ ((exists tp, In tp l /\ exists q, s_in (fst tp) q /\ s_dist (tapply (tinverse (snd tp)) p) q <= w) -> b = true)) end.
    { intros [b [X [Y Z]]]. exists b. split; [exact X|]. split; intros H; [apply IFF; auto|apply Z, IFF; auto]. }
    refine (flow _ _ _ c _ (box_sphere (c_bb c) v r) l (fun tp => exists q, s_in (fst tp) q /\ s_dist (tapply (tinverse (snd tp)) p) q <= (1 + 10 * uro) * B2R r + (E + 2 * er (S k) + th))
       (fun tp => exists q, s_in (fst tp) q /\ s_dist (tapply (tinverse (snd tp)) p) q <= (1 - 10 * uro) * B2R r - (E + 2 * er (S k) + th)) _ _).
    - eapply Forall2_impl'; [|apply (fi_shapes _ _ _ _ I)]. intros [t pose'] [ch inv] IN [pose [P [BT [EI B]]]]. cbn [fst snd] in *. subst inv.
      destruct (inv_step rho m RR RM pose pose' P BT v p E FV D ltac:(lra) ltac:(lra)) as [F1 D1]. rewrite er_S in *.
      destruct (fb_b _ _ _ _ B (tapply (tinverse pose') p) (tapply (tinverse pose) v) (E + del rho m) r F1 D1 ltac:(lra)) as [b [H1 [H2 H3]]]; auto.
      { pose proof (inv_norm pose' p ltac:(apply P)). lra. }
      exists b. split; auto. split.
      + intros X. destruct (H2 X) as [q [Q1 Q2]]. exists q. split; auto. lra.
      + intros [q [Q1 Q2]]. apply H3. exists q. split; auto. lra.
    - intros H. apply IFF in H. destruct H as [q [Q1 Q2]]. destruct (fi_soup _ _ _ _ I) as [s [cs' [S1 [S2 [S3 S4]]]]]. destruct (fi_fin _ _ _ _ I) as [FN FX].
      assert (NE : l <> []) by (inversion Q1; subst; destruct l; [contradiction|discriminate]). rewrite (fi_bb _ _ _ _ I NE).
      set (lo := rv (c_min c)) in *. set (hi := rv (c_max c)) in *. set (e := er (S k)) in *.
      assert (B' : forall q', In q' cs' -> s_in_box (V3 (vx lo - e) (vy lo - e) (vz lo - e)) (V3 (vx hi + e) (vy hi + e) (vz hi + e)) q').
      { clear - S2 S4. induction S2 as [|a a' cs cs' [_ [Q _]] F IH]; intros x X; [destruct X|]. destruct X as [<-|X].
        - specialize (S4 a (or_introl eq_refl)). apply dist_comp in Q. destruct Q as [Q1 [Q2 Q3]]. apply Rabs_le_inv in Q1, Q2, Q3. unfold s_in_box in *. cbn [vx vy vz]. lra.
        - apply IH; auto. intros; apply S4; right; auto. }
      pose proof (hull_box cs' q _ _ (S3 q Q1) B') as QB.
      assert (SOME : exists a, In a (s_corners s)).
      { inversion S2 as [E0 E1|a a' x y HA F E0 E1]; [|exists a; left; auto]. exfalso. rewrite <- E1 in S3. specialize (S3 q Q1 0 0 0 1). cbn [In] in S3. assert (0 * vx q + 0 * vy q + 0 * vz q + 1 <= 0) by (apply S3; intros ? []). lra. }
      destruct SOME as [a IA]. destruct (corners_fin _ _ _ _ a S2 IA) as [FA BA]. specialize (S4 a IA). fold e in BA.
      destruct (fi_far _ _ _ _ I) as [[G1 [G2 G3]] [G4 [G5 G6]]].
      destruct BA as [A1 [A2 A3]]. apply Rabs_le_inv in A1, A2, A3. pose proof S4 as S4'. unfold s_in_box in S4'.
      change (B2R (vx (c_min c))) with (vx lo) in G1. change (B2R (vy (c_min c))) with (vy lo) in G2. change (B2R (vz (c_min c))) with (vz lo) in G3.
      change (B2R (vx (c_max c))) with (vx hi) in G4. change (B2R (vy (c_max c))) with (vy hi) in G5. change (B2R (vz (c_max c))) with (vz hi) in G6.
      pose proof (norm_dist (rv v) p) as ND.
      apply (ball_complete m RM (box_make (c_min c) (c_max c)) v r); auto; cbn [box_make b_min b_max]; fold lo hi.
      + repeat split; apply Rabs_le; lra.
      + repeat split; apply Rabs_le; lra.
      + eapply bound_le; [apply norm_comp|lra].
      + unfold s_ordered. lra.
      + (* the point of the bounding box next to q *)
        assert (CL : forall lo hi x, lo <= hi -> lo - e <= x <= hi + e -> exists y, lo <= y <= hi /\ Rabs (x - y) <= e).
        { intros lo' hi' x LH LX. destruct (Rlt_le_dec x lo') as [C|C]; [exists lo'; split; [lra|apply Rabs_le; lra]|]. destruct (Rlt_le_dec hi' x) as [C'|C']; [exists hi'|exists x]; (split; [lra|apply Rabs_le; lra]). }
        unfold s_in_box in QB. cbn [vx vy vz] in QB. destruct QB as [QX [QY QZ]].
        destruct (CL (vx lo) (vx hi) (vx q) ltac:(lra) QX) as [y1 [Y1 Z1]]. destruct (CL (vy lo) (vy hi) (vy q) ltac:(lra) QY) as [y2 [Y2 Z2]]. destruct (CL (vz lo) (vz hi) (vz q) ltac:(lra) QZ) as [y3 [Y3 Z3]].
        exists (V3 y1 y2 y3). split; [unfold s_in_box; cbn [vx vy vz]; auto|].
        assert (QD : s_dist q (V3 y1 y2 y3) <= 7 / 4 * e) by (apply close_dist; [auto|unfold s_close; cbn [vx vy vz]; auto]).
        pose proof (dist_tri (rv v) p (V3 y1 y2 y3)) as T1. pose proof (dist_tri p q (V3 y1 y2 y3)) as T2. unfold th in Q2. lra.
  Qed.
  Lemma fbuilt_comp : forall k M l c, finvt k M l c -> M <= m -> 0 <= M -> fbuilt (S k) M (TComp l) (comp_child c).
  Proof.
    intros k M l c I MM M0. constructor; cbn [comp_child ch_contains ch_sphere ch_mesh].
    - constructor. intros t pose H. eapply shapes_rigid; eauto.
    - intros p v E FV D EE NP. eapply comp_c; eauto.
    - intros p v E r FV D EE NP FR R1 R2. eapply comp_b; eauto.
    - intros v r H. unfold comp_sphere, comp_contains. rewrite sphere0 by auto. destruct (box_contains (c_bb c) v); cbn [negb]; auto. apply oany_ext.
      pose proof (fi_shapes _ _ _ _ I) as F. clear - F H. induction F as [|tp [ch inv] l cl [pose [_ [_ [_ B]]]] F IH]; constructor; auto. apply (fb_0 _ _ _ _ B). auto.
    - apply (fi_cache _ _ _ _ I).
    - apply (fi_size _ _ _ _ I).
    - destruct (fi_soup _ _ _ _ I) as [s [cs' [S1 [S2 [S3 _]]]]]. exists s, cs'. auto.
  Qed.

  Lemma within_pos : forall t' t M, s_drawn rho t t' -> s_within M t' -> 0 <= M.
  Proof.
    intros t' t M DR W. destruct W as [M mn mx H|M l H _]; auto. inversion DR; subst.
    assert (N : s_norm (rv mn0) <= M) by (apply H; unfold s_ordered, s_in_box in *; lra). pose proof (sqrt_pos (s_dot (rv mn0) (rv mn0))). unfold s_norm in *. lra.
  Qed.
  Theorem fbuild : forall t' t k M, s_drawn rho t t' -> s_depth k t' -> s_within M t' -> M <= m -> er k <= m / 100 -> (N.of_nat (8 * s_nboxes t') < 2^32)%N ->
    exists ch, build t = Ret ch /\ fbuilt k M t' ch.
  Proof.
    induction t' as [mn mx|l' IH] using ctree_ind'; intros t k M DR DP W MM EK S.
    - inversion DR; subst. eexists. split; [reflexivity|]. apply fbuilt_box; auto.
    - assert (M0 := within_pos _ _ _ DR W). inversion DR as [|l ? F]; subst. inversion DP as [|k' ? DPL]; subst. inversion W as [|? ? _ WL]; subst.
      assert (EK' : er k' <= m / 100) by (rewrite er_S in EK; pose proof (del_pos rho m RR RM); lra).
      assert (K : forall l2 l2', Forall2 (fun a b => s_drawn rho (fst a) (fst b) /\ s_pose_of rho (snd a) (snd b)) l2 l2' -> forall l1 c, l' = l1 ++ l2' -> finvt k' M l1 c -> exists c', build_list l2 c = Ret c' /\ finvt k' M l' c').
      { induction 1 as [|[t pose] [t' pose'] l2 l2' [D1 D2] F2 IH2]; intros l1 c E I.
        - exists c. rewrite app_nil_r in E. subst. auto.
        - cbn [fst snd] in *. assert (IN : In (t', pose') l') by (rewrite E; apply in_or_app; right; left; auto).
          assert (NB : (s_nboxes (TComp (l1 ++ [(t', pose')])) <= s_nboxes (TComp l'))%nat).
          { rewrite E. replace (l1 ++ (t', pose') :: l2') with ((l1 ++ [(t', pose')]) ++ l2') by (rewrite <- app_assoc; auto).
            rewrite (nboxes_app (l1 ++ [(t', pose')])). lia. }
          assert (NT : (s_nboxes t' <= s_nboxes (TComp (l1 ++ [(t', pose')])))%nat).
          { rewrite nboxes_app. cbn [s_nboxes]. lia. }
          pose proof (sqrt_pos (s_dot (MathTypes.tt pose') (MathTypes.tt pose'))) as NP. fold (s_norm (MathTypes.tt pose')) in NP.
          pose proof (within_pos _ _ _ D1 (WL _ _ IN)) as MC.
          destruct (IH t' pose' IN t k' (M - s_norm (MathTypes.tt pose')) D1 (DPL _ _ IN) (WL _ _ IN)) as [ch [EB B]]; [lra|auto|lia|].
          assert (BT : s_bound m (rv (MathTypes.tt pose))). { destruct D2 as [_ [_ [_ [ET _]]]]. rewrite <- ET. eapply bound_le; [apply norm_comp|]. lra. }
          destruct (fadd k' M l1 c t' ch pose pose' I D2 BT MM EK B) as [c' [EC I']]; [lia|].
          destruct (IH2 (l1 ++ [(t', pose')]) c') as [c'' [E'' I'']]; auto.
          { rewrite <- app_assoc. auto. }
          exists c''. split; auto. cbn [build_list]. rewrite EB. cbn [obind]. rewrite EC. cbn [obind]. exact E''. }
      destruct (K l l' F [] comp_new eq_refl (fnew k' M)) as [c [E I]].
      exists (comp_child c). split; [|apply fbuilt_comp; auto].
      change (build (TComp l)) with (let* c := build_list l comp_new in Ret (comp_child c)). rewrite E. reflexivity.
  Qed.
End Tree.
