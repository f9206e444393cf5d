(** Lemmas about the laser range finder: writing ranges, drawing segments *)
From Coq Require Import ZArith NArith List Bool Lia Reals Lra.
From Flocq Require Import Core.Raux.
From Verif Require Import Num NumOrd MathTypes Outcome Mesh Spec P_Tac P_Math P_Trig P_Mesh P_MeshGeo Laser SpecLaser P_Laser.
Import ListNotations.

(** ** any number type *)
Section Points.
  Context {T : Type} {NT : Num T} {NO : NumOrd T}.
  (* drawing a list of points *)
  Fixpoint renderPoints (ranges : list T) (ps : list (nat * T)) : outcome (list T) :=
    match ps with [] => Ret ranges | (i, d) :: r => obind (renderPoint ranges i d) (fun ranges' => renderPoints ranges' r) end.
  Lemma point_spec : forall ranges i d (r : T), nth_error ranges i = Some r ->
    exists ranges', renderPoint ranges i d = Ret ranges' /\ length ranges' = length ranges /\
      nth_error ranges' i = Some (if (neqb r n0 || nltb d r)%bool then d else r) /\ forall j, j <> i -> nth_error ranges' j = nth_error ranges j.
  Proof.
    intros ranges i d r N. unfold renderPoint. rewrite N. cbn [or_ub obind]. destruct (neqb r n0 || nltb d r)%bool eqn:E.
    - destruct (set_nth_some ranges i d) as [l' [S [L [K O]]]]; [apply nth_error_Some; congruence|]. exists l'. rewrite S. auto.
    - exists ranges. auto.
  Qed.
  Lemma point_ub : forall ranges i (d : T), nth_error ranges i = None -> renderPoint ranges i d = UB.
  Proof. intros ranges i d N. unfold renderPoint. rewrite N. reflexivity. Qed.
  Definition real_range (d : T) : Prop := neqb d d = true /\ neqb d n0 = false.
  Lemma lt_none : forall a b : T, nltb a b = true -> nltb b a = false.
  Proof. intros a b H. destruct (nltb b a) eqn:E; auto. apply nltb_key in H as [x [y [A [B L]]]]. apply nltb_key in E as [x' [y' [A' [B' L']]]].
    exfalso. assert (x' = y) by congruence. assert (y' = x) by congruence. subst. apply (ext_lt_irrefl x). eapply ext_lt_trans; eauto. Qed.
  Lemma nge_trans : forall a b c : T, neqb b b = true -> nltb a b = false -> nltb b c = false -> nltb a c = false.
  Proof.
    intros a b c K A B. destruct (nltb a c) eqn:E; auto. apply nltb_key in E as [x [z [X [Z L]]]]. apply neqb_key in K as [y [Y _]].
    exfalso. destruct (ext_total x y) as [H|[->|H]].
    - assert (nltb a b = true) by (apply nltb_key; eauto). congruence.
    - assert (nltb b c = true) by (apply nltb_key; eauto). congruence.
    - assert (nltb b c = true) by (apply nltb_key; exists y, z; repeat split; auto; eapply ext_lt_trans; eauto). congruence.
  Qed.
  Lemma nlt_irrefl : forall a : T, nltb a a = false.
  Proof. intros a. destruct (nltb a a) eqn:E; auto. pose proof (lt_none _ _ E). congruence. Qed.
  Lemma points_spec : forall ps ranges ranges' i (r r' : T), renderPoints ranges ps = Ret ranges' -> (forall j d, In (j, d) ps -> real_range d) ->
    nth_error ranges i = Some r -> nth_error ranges' i = Some r' ->
    (r' = r \/ (In (i, r') ps /\ (neqb r n0 = true \/ nltb r' r = true))) /\ (forall d, In (i, d) ps -> nltb d r' = false) /\
    ((exists d, In (i, d) ps) -> neqb r' n0 = false) /\ (neqb r n0 = false -> nltb r r' = false).
  Proof.
    induction ps as [|[j d] ps IH]; intros ranges ranges' i r r' H RD N N'.
    - cbn in H. injection H as <-. assert (r' = r) by congruence. subst. repeat split; auto; cbn; try tauto.
      + intros [d []].
      + intros _. apply nlt_irrefl.
    - cbn [renderPoints] in H. destruct (renderPoint ranges j d) as [rs| | |] eqn:E; try discriminate. cbn [obind] in H.
      assert (RD1 : real_range d) by (apply (RD j); left; auto). assert (RD2 : forall j d, In (j, d) ps -> real_range d) by (intros ? ? ?; eapply RD; right; eauto).
      destruct (nth_error ranges j) as [q|] eqn:NJ; [|rewrite point_ub in E by auto; discriminate].
      destruct (point_spec ranges j d q NJ) as [rs' [E' [_ [K O]]]]. assert (rs' = rs) by congruence. subst rs'.
      destruct (Nat.eq_dec i j) as [->|D].
      + assert (q = r) by congruence. subst q. destruct (neqb r n0 || nltb d r)%bool eqn:C.
        * destruct (IH rs ranges' j d r' H RD2 K N') as [A [B [Z G]]]. destruct RD1 as [R1 R2]. specialize (G R2). apply orb_true_iff in C. repeat split.
          -- right. destruct A as [-> |[A A']]; [split; [left; auto|auto]|]. split; [right; auto|].
             destruct C as [C|C]; auto. destruct A' as [A'|A']; [congruence|]. right.
             apply nltb_key in C as [x [y [X [Y L]]]]. apply nltb_key in A' as [x' [y' [X' [Y' L']]]]. assert (y' = x) by congruence. subst.
             apply nltb_key. exists x', y. repeat split; auto. eapply ext_lt_trans; eauto.
          -- intros e [I|I]; [injection I as <-; auto|auto].
          -- intros _. destruct A as [-> |[A _]]; auto. apply (RD2 j r' A).
          -- intros NZ. destruct C as [C|C]; [congruence|]. apply nge_trans with d; auto. apply lt_none; auto.
        * destruct (IH rs ranges' j r r' H RD2 K N') as [A [B [Z G]]]. apply orb_false_iff in C. destruct C as [C1 C2]. specialize (G C1). repeat split.
          -- destruct A as [A|[A A']]; auto. right. split; [right|]; auto.
          -- intros e [I|I]; [injection I as <-|auto].
             destruct (neqb r r) eqn:RR; [apply nge_trans with r; auto|].
             destruct (nltb d r') eqn:LT; auto. exfalso. destruct A as [-> |[A A']].
             ++ apply nltb_key in LT as [x [y [X [Y L]]]]. assert (neqb r r = true) by (apply neqb_key; eauto). congruence.
             ++ destruct A' as [A'|A']; [congruence|]. apply nltb_key in A' as [x [y [X [Y L]]]]. assert (neqb r r = true) by (apply neqb_key; eauto). congruence.
          -- intros _. destruct A as [-> |[A _]]; auto. apply (RD2 j r' A).
          -- auto.
      + rewrite <- O in N by auto. destruct (IH rs ranges' i r r' H RD2 N N') as [A [B [Z G]]]. repeat split; auto.
        * destruct A as [A|[A A']]; auto. right. split; [right|]; auto.
        * intros e [I|I]; [congruence|auto].
        * intros [e [I|I]]; [congruence|apply Z; eauto].
  Qed.
  Lemma points_length : forall ps ranges ranges', renderPoints ranges ps = Ret ranges' -> length ranges' = length ranges.
  Proof.
    induction ps as [|[j d] ps IH]; intros ranges ranges' H; [injection H as <-; auto|]. cbn [renderPoints] in H.
    destruct (renderPoint ranges j d) as [rs| | |] eqn:E; try discriminate. cbn [obind] in H. rewrite (IH _ _ H).
    destruct (nth_error ranges j) as [q|] eqn:NJ; [|rewrite point_ub in E by auto; discriminate].
    destruct (point_spec ranges j d q NJ) as [rs' [E' [L _]]]. congruence.
  Qed.
  Lemma points_ret : forall ps ranges, (forall j d, In (j, d) ps -> (j < length ranges)%nat) -> exists ranges', renderPoints ranges ps = Ret ranges'.
  Proof.
    induction ps as [|[j d] ps IH]; intros ranges H; [eexists; reflexivity|]. cbn [renderPoints].
    destruct (nth_error ranges j) as [q|] eqn:NJ; [|apply nth_error_None in NJ; specialize (H j d (or_introl eq_refl)); lia].
    destruct (point_spec ranges j d q NJ) as [rs' [E' [L _]]]. rewrite E'. cbn [obind]. apply IH. intros k e I. rewrite L. apply (H k e). right; auto.
  Qed.
  Lemma points_ub : forall ps ranges j d, In (j, d) ps -> (length ranges <= j)%nat -> renderPoints ranges ps = UB.
  Proof.
    induction ps as [|[k e] ps IH]; intros ranges j d I L; [destruct I|]. cbn [renderPoints].
    destruct (nth_error ranges k) as [q|] eqn:NJ; [|rewrite point_ub by auto; reflexivity].
    destruct (point_spec ranges k e q NJ) as [rs' [E' [LL _]]]. rewrite E'. cbn [obind]. destruct I as [I|I].
    - injection I as -> ->. assert (nth_error ranges j = None) by (apply nth_error_None; auto). congruence.
    - apply IH with j d; auto. lia.
  Qed.
End Points.

(** ** real arithmetic *)
Local Open Scope R_scope.
Definition s_beamd (a : R) : vec2 R := V2 (cos a) (sin a).
Definition s_dist (a : R) (p q : vec2 R) : R := s_turn p (V2 (v2x q - v2x p) (v2y q - v2y p)) / s_turn (s_beamd a) (V2 (v2x q - v2x p) (v2y q - v2y p)).
Lemma lit_iff : forall a p q d, s_lit a p q d <-> 0 < s_turn p q /\ 0 < s_turn p (s_beamd a) /\ 0 <= s_turn (s_beamd a) q /\ d = s_dist a p q.
Proof.
  intros a [x1 y1] [x2 y2] d. unfold s_lit, s_dist, s_turn, s_beamd, s_along. cbn [v2x v2y]. set (c := cos a). set (s := sin a).
  set (D := c * (y2 - y1) - s * (x2 - x1)). split.
  - intros [T [P [t [[t0 t1] E]]]]. injection E as Ex Ey.
    assert (DD : d * D = x1 * y2 - y1 * x2).
    { unfold D. replace (d * (c * (y2 - y1) - s * (x2 - x1))) with (d * c * (y2 - y1) - d * s * (x2 - x1)) by ring. rewrite Ex, Ey. ring. }
    assert (DP : 0 < D). { apply Rmult_lt_reg_l with d; auto. lra. }
    assert (C1 : x1 * s - y1 * c = t * D).
    { apply Rmult_eq_reg_l with d; [|lra]. unfold D. replace (d * (x1 * s - y1 * c)) with (x1 * (d * s) - y1 * (d * c)) by ring.
      replace (d * (t * (c * (y2 - y1) - s * (x2 - x1)))) with (t * ((d * c) * (y2 - y1) - (d * s) * (x2 - x1))) by ring. rewrite Ex, Ey. ring. }
    assert (C2 : c * y2 - s * x2 = (1 - t) * D) by (unfold D in *; lra).
    repeat split; auto.
    + rewrite C1. apply Rmult_lt_0_compat; auto.
    + rewrite C2. apply Rmult_le_pos; lra.
    + fold D. apply Rmult_eq_reg_r with D; [|lra]. unfold Rdiv. rewrite Rmult_assoc, Rinv_l by lra. rewrite DD. ring.
  - intros [T [A [B E]]]. fold D in E. assert (DP : 0 < D) by (unfold D; lra). split; auto. split.
    + rewrite E. apply Rmult_lt_0_compat; [lra|apply Rinv_0_lt_compat; auto].
    + exists ((x1 * s - y1 * c) / D). split.
      * split; [apply Rmult_lt_0_compat; auto; apply Rinv_0_lt_compat; auto|]. apply Rmult_le_reg_r with D; auto. unfold Rdiv. rewrite Rmult_assoc, Rinv_l by lra. unfold D. lra.
      * rewrite E. f_equal; unfold D; field; unfold D in DP; lra.
Qed.
Lemma lit_dist_pos : forall a p q, 0 < s_turn p q -> 0 < s_turn p (s_beamd a) -> 0 <= s_turn (s_beamd a) q -> 0 < s_dist a p q.
Proof. intros a p q A B C. assert (L : s_lit a p q (s_dist a p q)) by (apply lit_iff; auto). destruct L as [_ [P _]]. exact P. Qed.

(** polar form *)
Definition s_ang (p : vec2 R) : R := Ratan2 (v2y p) (v2x p).
Lemma polar : forall p : vec2 R, p <> V2 0 0 -> exists r, 0 < r /\ p = V2 (r * cos (s_ang p)) (r * sin (s_ang p)) /\ - PI < s_ang p <= PI.
Proof.
  intros [x y] H. unfold s_ang. cbn [v2x v2y]. assert (NZ : x <> 0 \/ y <> 0).
  { destruct (Req_dec x 0); [|auto]. destruct (Req_dec y 0); [|auto]. exfalso. apply H. congruence. }
  destruct (atan2_cos_sin y x NZ) as [C S]. pose proof (norm_pos x y NZ). exists (sqrt (x * x + y * y)). split; auto. split; [|apply atan2_range].
  rewrite C, S. f_equal; field; lra.
Qed.
Lemma sin_back : forall x, sin (x + 2 * PI) = sin x.
Proof. intros. rewrite sin_plus, sin_2PI, cos_2PI. ring. Qed.
Lemma sin_pos_inv : forall x, - (2 * PI) < x < 2 * PI -> 0 < sin x -> 0 < x < PI \/ x < - PI.
Proof.
  intros x H S. pose proof PI_RGT_0. destruct (Rlt_or_le x (- PI)); auto. left.
  destruct (Rle_or_lt x 0). { pose proof (sin_ge_0 (- x)) as G. rewrite sin_neg in G. lra. }
  destruct (Rlt_or_le x PI); auto. pose proof (sin_le_0 x). lra.
Qed.
Lemma sin_nn_inv : forall x, - (2 * PI) < x < 2 * PI -> 0 <= sin x -> 0 <= x <= PI \/ x <= - PI.
Proof.
  intros x H S. pose proof PI_RGT_0. destruct (Rle_or_lt x (- PI)); auto. left.
  destruct (Rlt_or_le x 0). { pose proof (sin_gt_0 (- x)) as G. rewrite sin_neg in G. lra. }
  destruct (Rle_or_lt x PI); auto. pose proof (sin_lt_0 x). lra.
Qed.
Lemma sin_pos_low : forall x, - (2 * PI) < x < - PI -> 0 < sin x.
Proof. intros x H. rewrite <- sin_back. apply sin_gt_0; lra. Qed.
Lemma sector_near : forall a1 a2 b, - PI < a1 -> a2 <= PI -> a1 < a2 -> a2 - a1 < PI -> - PI < b <= PI ->
  (0 < sin (b - a1) /\ 0 <= sin (a2 - b)) <-> (a1 < b <= a2).
Proof.
  intros a1 a2 b A1 A2 A D B. pose proof PI_RGT_0. split.
  - intros [S1 S2]. apply sin_pos_inv in S1; [|lra]. apply sin_nn_inv in S2; [|lra]. lra.
  - intros H0. split; [apply sin_gt_0|apply sin_ge_0]; lra.
Qed.
Lemma sector_wrap : forall a1 a2 b, a1 <= PI -> - PI < a2 -> PI < a1 - a2 -> - PI < b <= PI ->
  (0 < sin (b - a1) /\ 0 <= sin (a2 - b)) <-> (a1 < b \/ b <= a2).
Proof.
  intros a1 a2 b A1 A2 D B. pose proof PI_RGT_0. split.
  - intros [S1 S2]. apply sin_pos_inv in S1; [|lra]. apply sin_nn_inv in S2; [|lra]. lra.
  - intros [H0|H0].
    + split; [apply sin_gt_0; lra|left; apply sin_pos_low; lra].
    + split; [apply sin_pos_low; lra|apply sin_ge_0; lra].
Qed.
Lemma turn_beam_r : forall r a b, s_turn (V2 (r * cos a) (r * sin a)) (s_beamd b) = r * sin (b - a).
Proof. intros. unfold s_turn, s_beamd. cbn [v2x v2y]. rewrite sin_minus. ring. Qed.
Lemma turn_beam_l : forall r a b, s_turn (s_beamd b) (V2 (r * cos a) (r * sin a)) = r * sin (a - b).
Proof. intros. unfold s_turn, s_beamd. cbn [v2x v2y]. rewrite sin_minus. ring. Qed.
Lemma turn_polar : forall r a q b, s_turn (V2 (r * cos a) (r * sin a)) (V2 (q * cos b) (q * sin b)) = r * q * sin (b - a).
Proof. intros. unfold s_turn. cbn [v2x v2y]. rewrite sin_minus. ring. Qed.
Lemma pos_scale : forall r x, 0 < r -> 0 < r * x -> 0 < x.
Proof. intros r x P H. apply Rmult_lt_reg_l with r; auto. lra. Qed.
Lemma nn_scale : forall r x, 0 < r -> 0 <= r * x -> 0 <= x.
Proof. intros r x P H. apply Rmult_le_reg_l with r; auto. lra. Qed.
(* which beams a segment lights, in terms of the angles of its end points *)
Lemma lit_near : forall p q b, p <> V2 0 0 -> q <> V2 0 0 -> Rabs (s_ang q - s_ang p) < PI -> - PI < b <= PI ->
  (exists d, s_lit b p q d) <-> s_ang p < b <= s_ang q.
Proof.
  intros p q b P Q D B. destruct (polar p P) as [r [R0 [E A]]]. destruct (polar q Q) as [u [U0 [F C]]]. apply Rabs_def2 in D.
  split.
  - intros [d L]. apply lit_iff in L. destruct L as [T [L1 [L2 _]]]. rewrite E in L1. rewrite F in L2. rewrite turn_beam_r in L1. rewrite turn_beam_l in L2.
    apply pos_scale in L1; auto. apply nn_scale in L2; auto. rewrite E, F, turn_polar in T. apply pos_scale in T; [|apply Rmult_lt_0_compat; auto].
    apply sin_pos_inv in T; [|lra]. apply sector_near; auto; lra.
  - intros H. destruct (proj2 (sector_near (s_ang p) (s_ang q) b (proj1 A) (proj2 C) ltac:(lra) ltac:(lra) B) H) as [S1 S2].
    exists (s_dist b p q). apply lit_iff. repeat split.
    + rewrite E, F, turn_polar. apply Rmult_lt_0_compat; [apply Rmult_lt_0_compat; auto|]. apply sin_gt_0; lra.
    + rewrite E, turn_beam_r. apply Rmult_lt_0_compat; auto.
    + rewrite F, turn_beam_l. apply Rmult_le_pos; lra.
Qed.
Lemma lit_wrap : forall p q b, p <> V2 0 0 -> q <> V2 0 0 -> PI < s_ang p - s_ang q -> - PI < b <= PI ->
  (exists d, s_lit b p q d) <-> s_ang p < b \/ b <= s_ang q.
Proof.
  intros p q b P Q D B. destruct (polar p P) as [r [R0 [E A]]]. destruct (polar q Q) as [u [U0 [F C]]].
  split.
  - intros [d L]. apply lit_iff in L. destruct L as [T [L1 [L2 _]]]. rewrite E in L1. rewrite F in L2. rewrite turn_beam_r in L1. rewrite turn_beam_l in L2.
    apply pos_scale in L1; auto. apply nn_scale in L2; auto. apply sector_wrap; auto; lra.
  - intros H. destruct (proj2 (sector_wrap (s_ang p) (s_ang q) b (proj2 A) (proj1 C) D B) H) as [S1 S2].
    exists (s_dist b p q). apply lit_iff. repeat split.
    + rewrite E, F, turn_polar. apply Rmult_lt_0_compat; [apply Rmult_lt_0_compat; auto|]. apply sin_pos_low; lra.
    + rewrite E, turn_beam_r. apply Rmult_lt_0_compat; auto.
    + rewrite F, turn_beam_l. apply Rmult_le_pos; lra.
Qed.
Lemma lit_none : forall p q b d, p <> V2 0 0 -> q <> V2 0 0 -> s_ang q - s_ang p >= PI \/ - PI <= s_ang q - s_ang p <= 0 -> ~ s_lit b p q d.
Proof.
  intros p q b d P Q D L. destruct (polar p P) as [r [R0 [E A]]]. destruct (polar q Q) as [u [U0 [F C]]]. apply lit_iff in L. destruct L as [T _].
  rewrite E, F, turn_polar in T. apply pos_scale in T; [|apply Rmult_lt_0_compat; auto]. apply sin_pos_inv in T; [|lra]. lra.
Qed.
Lemma lit_null : forall p q b d, p = V2 0 0 \/ q = V2 0 0 \/ p = q -> ~ s_lit b p q d.
Proof. intros p q b d H [T _]. unfold s_turn in T. destruct H as [-> | [-> | ->]]; cbn in T; lra. Qed.

(** drawing a set of beams *)
Lemma part_R : forall l p q is_ ranges, NoDup is_ ->
  (forall i, In i is_ -> (i < length ranges)%nat /\ exists a, nth_error (l_rays l) i = Some (V3 (cos a) (sin a) 0) /\ exists d, s_lit a p q d) ->
  exists ranges', render_part l p (v2sub q p) is_ ranges = Ret ranges' /\ length ranges' = length ranges /\
    (forall i, ~ In i is_ -> nth_error ranges' i = nth_error ranges i) /\
    (forall i, In i is_ -> exists a r d, nth_error (l_rays l) i = Some (V3 (cos a) (sin a) 0) /\ nth_error ranges i = Some r /\ s_lit a p q d /\ nth_error ranges' i = Some (s_nearer r d)).
Proof.
  intros l p q is_. induction is_ as [|i is_ IH]; intros ranges ND H.
  - exists ranges. repeat split; auto. intros i [].
  - inversion ND as [|? ? NI ND']. subst. cbn [render_part]. destruct (H i) as [LI [a [RA [d L]]]]; [left; auto|]. rewrite RA. cbn [or_ub obind].
    assert (DE : v2cross p (v2sub q p) / v2cross (vproj2 (V3 (cos a) (sin a) 0)) (v2sub q p) = d).
    { destruct (proj1 (lit_iff _ _ _ _) L) as [_ [_ [_ ->]]]. reflexivity. }
    unR. unfold Rdiv in DE |- *. rewrite DE. assert (DP : 0 < d) by (destruct L as [_ [L _]]; exact L).
    assert (G : Rltb 0 d = true) by (apply Rltb_true; auto). rewrite G.
    destruct (nth_error ranges i) as [r|] eqn:NR; [|apply nth_error_None in NR; lia].
    destruct (point_spec ranges i d r NR) as [rs [E [LN [K O]]]]. rewrite E. cbn [obind].
    destruct (IH rs ND') as [ranges' [E' [LN' [O' K']]]].
    { intros j J. rewrite LN. apply H. right; auto. }
    exists ranges'. split; auto. split; [lia|]. split.
    + intros j NJ. rewrite O' by (intros J; apply NJ; right; auto). apply O. intros ->. apply NJ. left; auto.
    + intros j [<-|J].
      * exists a, r, d. repeat split; auto; try apply L. rewrite O' by auto. rewrite K. f_equal. unfold s_nearer. unR. 
        destruct (Reqb r 0) eqn:Z.
        { apply Reqb_true in Z. destruct (Req_EM_T r 0); [reflexivity|contradiction]. }
        apply Reqb_false in Z. destruct (Req_EM_T r 0); [contradiction|]. cbn [orb]. unfold Rmin. destruct (Rltb d r) eqn:LT.
        { apply Rltb_true in LT. destruct (Rle_dec r d); lra. }
        apply Rltb_false in LT. destruct (Rle_dec r d); lra.
      * destruct (K' j J) as [a' [r' [d' [B1 [B2 [B3 B4]]]]]]. exists a', r', d'. repeat split; auto; try apply B3. rewrite <- O; auto. intros ->. contradiction.
Qed.
