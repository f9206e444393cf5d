(** * C97: shapes through their common interface *)
From Coq Require Import ZArith NArith List Bool Lia Reals Lra.
From Verif Require Import Num NumOrd MathTypes Outcome Mesh Box Composite ShapeQuery P_BoxMesh Dispatch SpecDispatch Spec.
Import ListNotations.

Section Dispatch.
  Context {T : Type} {NT : Num T}.

  Definition kc (s : vshape T) : s_kind * nat :=
    (match s with VPlain _ => KPlain | VBox _ => KBox | VComp _ => KComp end, length (m_tris (v_mesh s))).

  Lemma gen_count mn mx (m : mesh T) : length (m_tris (generate_mesh mn mx m)) = length (m_tris m) + 12.
  Proof.
    rewrite gen_clean, generate_eq. cbn [m_tris clean]. rewrite app_length. reflexivity.
  Qed.
  Local Opaque generate_mesh.

  Lemma put_nth : forall l i n j, nth_error (s_put l i n) j =
    match nth_error l j with Some (k, c) => if Nat.eqb j i then Some (k, n) else Some (k, c) | None => None end.
  Proof.
    intros l i n j. unfold s_put. rewrite nth_error_map.
    assert (C : forall (l : list (s_kind * nat)) s j, nth_error (combine (seq s (length l)) l) j = match nth_error l j with Some x => Some (s + j, x) | None => None end).
    { clear. induction l as [|x l IH]; intros s [|j]; cbn; auto; [now rewrite Nat.add_0_r|]. rewrite IH. destruct (nth_error l j); auto. do 2 f_equal. lia. }
    rewrite C. destruct (nth_error l j) as [[k c]|]; cbn; auto. destruct (Nat.eqb j i); auto.
  Qed.

  Lemma upd_nth : forall (w : list (vshape T)) i s j, i < length w ->
    nth_error (upd w i s) j = if Nat.eqb j i then Some s else nth_error w j.
  Proof.
    intros w i s j L. unfold upd. destruct (Nat.eqb_spec j i) as [->|N].
    - rewrite nth_error_app2; rewrite firstn_length_le by lia; [|lia]. now rewrite Nat.sub_diag.
    - destruct (Nat.lt_ge_cases j i).
      + rewrite nth_error_app1 by (rewrite firstn_length_le by lia; lia). 
        rewrite <- (firstn_skipn i w) at 2. rewrite nth_error_app1 by (rewrite firstn_length_le by lia; lia). reflexivity.
      + rewrite nth_error_app2; rewrite firstn_length_le by lia; [|lia]. destruct (j - i) as [|d] eqn:D; [lia|]. cbn.
        rewrite <- (firstn_skipn (S i) w) at 2. rewrite nth_error_app2; rewrite firstn_length_le by lia; [|lia]. f_equal. lia.
  Qed.

  Lemma ext_nth {A} : forall l k : list A, (forall i, nth_error l i = nth_error k i) -> l = k.
  Proof.
    induction l as [|x l IH]; intros [|y k] H; auto; try (specialize (H 0); discriminate).
    f_equal; [specialize (H 0); injection H; auto|]. apply IH. intro i. exact (H (S i)).
  Qed.

  Lemma upd_put : forall (w : list (vshape T)) i s k c, nth_error (map kc w) i = Some (k, c) -> fst (kc s) = k -> map kc (upd w i s) = s_put (map kc w) i (snd (kc s)).
  Proof.
    intros w i s k c H K. assert (L : i < length w) by (rewrite <- (map_length kc w); apply nth_error_Some; congruence).
    apply ext_nth. intro j. rewrite put_nth, nth_error_map, upd_nth by exact L. rewrite nth_error_map.
    destruct (Nat.eqb_spec j i) as [->|N].
    - rewrite nth_error_map in H. destruct (nth_error w i) as [x|]; [|discriminate]. cbn [option_map] in H |- *. assert (H' : kc x = (k, c)) by congruence. rewrite H', <- K. now destruct (kc s).
    - destruct (nth_error w j) as [x|]; cbn [option_map]; [now destruct (kc x)|reflexivity].
  Qed.

  Lemma put_same : forall l i k c, nth_error l i = Some (k, c) -> s_put l i c = l.
  Proof.
    intros l i k c H. apply ext_nth. intro j. rewrite put_nth. destruct (Nat.eqb_spec j i) as [->|N]; [now rewrite H|].
    destruct (nth_error l j) as [[? ?]|]; auto.
  Qed.

  Lemma get_kc : forall (w : list (vshape T)) i s, nth_error w i = Some s -> s_get (map kc w) i = length (m_tris (v_mesh s)).
  Proof.
    intros w i s H. unfold s_get. rewrite (nth_error_nth _ _ (KPlain, 0) (x := kc s)); [reflexivity|]. now rewrite nth_error_map, H.
  Qed.

  Lemma step_counts : forall w o w', v_step w o = Ret w' -> map kc w' = s_count_step (map kc w) o.
  Proof.
    intros w o w' H. assert (NK : forall i s, nth_error w i = Some s -> nth_error (map kc w) i = Some (kc s)) by (intros; now rewrite nth_error_map, H0).
    destruct o as [|mn mx| |i m|i j|i|i j pose|i j pose]; cbn [v_step s_count_step] in *.
    - injection H as <-. now rewrite map_app.
    - injection H as <-. rewrite map_app. cbn [map]. unfold kc, v_mesh, box_make, b_mesh. rewrite gen_count. reflexivity.
    - injection H as <-. now rewrite map_app.
    - destruct (nth_error w i) as [s|] eqn:N; [|discriminate]. rewrite (NK _ _ N). cbn [or_ub obind] in H.
      destruct s as [s|b|c]; cbn [kc] in *; cbn in H; injection H as <-; auto.
      pose proof (upd_put w i (VPlain (shape_setMesh s m)) _ _ (NK _ _ N)) as U. cbn in U. now apply U.
    - destruct (nth_error w i) as [s|] eqn:N; [|discriminate]. destruct (nth_error w j) as [o|] eqn:NJ; [|discriminate]. rewrite (NK _ _ N), (get_kc _ _ _ NJ). cbn [or_ub obind] in H.
      destruct s as [s|b|c]; cbn [kc] in *; cbn in H; injection H as <-; auto.
      pose proof (upd_put w i (VPlain (shape_setMesh s (v_mesh o))) _ _ (NK _ _ N)) as U. cbn in U. now apply U.
    - destruct (nth_error w i) as [s|] eqn:N; [|discriminate]. cbn [or_ub obind] in H. injection H as <-.
      assert (KE : kc (snd (v_bbox s)) = kc s). { destruct s as [s|b|c]; cbn; auto. unfold shape_bbox. destruct (s_bbv s); cbn; auto. destruct (bb_of_points _); reflexivity. }
      rewrite (upd_put w i _ (fst (kc s)) (snd (kc s))), KE; [|rewrite (NK _ _ N); now destruct (kc s)|now rewrite KE].
      apply (put_same _ _ (fst (kc s))). rewrite (NK _ _ N). now destruct (kc s).
    - destruct (nth_error w i) as [[s|b|c]|] eqn:N; try discriminate. destruct (nth_error w j) as [[s|o|c]|] eqn:NJ; try discriminate. injection H as <-.
      rewrite (upd_put w i (VBox (box_enclose b o pose)) _ _ (NK _ _ N) eq_refl), (get_kc _ _ _ N). f_equal. unfold kc, snd, v_mesh, box_enclose.
      match goal with |- context [let (_, _) := ?x in _] => destruct x end. cbn [b_mesh]. apply gen_count.
    - destruct (nth_error w i) as [[s|b|c]|] eqn:N; try discriminate. destruct (nth_error w j) as [o|] eqn:NJ; try discriminate.
      destruct (comp_add c (v_child o) pose) as [c'| | |] eqn:E; try discriminate. cbn [obind] in H. injection H as <-.
      rewrite (upd_put w i (VComp c') _ _ (NK _ _ N) eq_refl), (get_kc _ _ _ N), (get_kc _ _ _ NJ). f_equal. unfold comp_add in E.
      destruct (getTriangles _) as [tm| | |]; try discriminate. cbn [obind] in E. destruct (fold_left _ _ _) as [[r mn] mx]. injection E as <-. cbn. rewrite app_length, map_length. f_equal.
      destruct o; reflexivity.
  Qed.

  (** C97: after every program, each shape's mesh has as many triangles as were put into it: those of the last mesh set on a plain shape,
      12 for a box and 12 more for every enclose, the sum of the children's (at the time they were added) for a composite; setMesh on
      boxes and composites has no effect. empty() is true exactly if there are no triangles *)
  Theorem C97_counts : forall ops w, v_run [] ops = Ret w ->
    List.length w = List.length (s_counts ops) /\
    forall i s, nth_error w i = Some s ->
      nth_error (s_counts ops) i = Some (match s with VPlain _ => KPlain | VBox _ => KBox | VComp _ => KComp end, v_size s) /\
      (v_empty s = true <-> v_size s = 0).
  Proof.
    intros ops w H.
    assert (G : forall ops w0 w1, v_run w0 ops = Ret w1 -> map kc w1 = fold_left s_count_step ops (map kc w0)).
    { clear. induction ops as [|o ops IH]; intros w0 w1 H; cbn in H |- *; [injection H as <-; auto|].
      destruct (v_step w0 o) as [w| | |] eqn:E; try discriminate. cbn [obind] in H. rewrite (IH _ _ H). f_equal. now apply step_counts. }
    pose proof (G _ _ _ H) as E. change (map kc w = s_counts ops) in E. split; [rewrite <- E; now rewrite map_length|].
    intros i s N. split; [rewrite <- E, nth_error_map, N; reflexivity|].
    unfold v_size, mesh_size. destruct s as [s|b|c]; unfold v_empty, shape_empty, v_mesh, mesh_empty;
      (destruct (m_tris _); cbn; split; intro; (reflexivity || discriminate)).
  Qed.

  (** C97: changing or destroying the mesh of a shape later does not change the composites it was added to, and no call changes any
      other shape *)
  Theorem C97_others : forall w o w' j s, v_step w o = Ret w' -> nth_error w j = Some s ->
    match o with VSetMesh i _ | VSetMeshOf i _ | VBBox i | VEnclose i _ _ | VAdd i _ _ => i <> j | _ => True end -> nth_error w' j = Some s.
  Proof.
    intros w o w' j s H N D.
    assert (U : forall i x y, nth_error w i = Some x -> i <> j -> nth_error (upd w i y) j = Some s).
    { intros i x y NI NE. rewrite upd_nth by (apply nth_error_Some; congruence). destruct (Nat.eqb_spec j i); congruence. }
    assert (L : j < List.length w) by (apply nth_error_Some; congruence).
    destruct o as [|mn mx| |i m|i k|i|i k pose|i k pose]; cbn [v_step] in H; try (injection H as <-; rewrite nth_error_app1; auto).
    - destruct (nth_error w i) as [x|] eqn:NI; [|discriminate]. cbn [or_ub obind] in H. destruct x; cbn in H; injection H as <-; auto. eapply U; eauto.
    - destruct (nth_error w i) as [x|] eqn:NI; [|discriminate]. destruct (nth_error w k) as [y|]; [|discriminate]. cbn [or_ub obind] in H. destruct x; cbn in H; injection H as <-; auto. eapply U; eauto.
    - destruct (nth_error w i) as [x|] eqn:NI; [|discriminate]. cbn [or_ub obind] in H. injection H as <-. eapply U; eauto.
    - destruct (nth_error w i) as [[x|b|c]|] eqn:NI; try discriminate. destruct (nth_error w k) as [[y|o|c]|]; try discriminate. injection H as <-. eapply U; eauto.
    - destruct (nth_error w i) as [[x|b|c]|] eqn:NI; try discriminate. destruct (nth_error w k) as [y|]; try discriminate.
      destruct (comp_add _ _ _); try discriminate. cbn [obind] in H. injection H as <-. eapply U; eauto.
  Qed.

  (** ** rays through the interface *)
  Definition tot (ch : child T) := forall r a b d, exists x, ch_ray ch r a b d = Ret x.
  Definition safe (ch : child T) := forall r a b d, ch_ray ch r a b d = Exn \/ exists x, ch_ray ch r a b d = Ret x.
  Definition thr (ch : child T) := forall r a b d, ch_ray ch r a b d = Exn.
  Definition good (s : vshape T) (f : s_flag3) : Prop :=
    match s with
    | VPlain _ => f = (true, false, true)
    | VBox _ => f = (false, false, false)
    | VComp c => fst (fst f) = false /\ (forall ch i, In (ch, i) (c_shapes c) -> safe ch) /\
        (snd f = false -> forall ch i, In (ch, i) (c_shapes c) -> tot ch) /\
        (snd (fst f) = true -> exists ch i, In (ch, i) (c_shapes c) /\ thr ch)
    end.

  Lemma loop_exn : forall r t0 l hit md, (forall ch inv, In (ch, inv) l -> safe ch) ->
    (exists ch inv, In (ch, inv) l /\ thr ch) -> comp_ray_loop r t0 l hit md = Exn.
  Proof.
    intros r t0. induction l as [|[ch inv] l IH]; intros hit md A [ch0 [inv0 [I E]]]; [destruct I|]. cbn [comp_ray_loop].
    destruct I as [I|I].
    - injection I as -> ->. rewrite E. reflexivity.
    - assert (A' : forall ch inv, In (ch, inv) l -> safe ch) by (intros ch1 inv1 I1; apply (A ch1 inv1); right; auto).
      match goal with |- context [ch_ray ch ?a ?b ?c ?d] => destruct (A ch inv (or_introl eq_refl) a b c d) as [X|[[h x] X]]; rewrite X; cbn [obind] end; auto.
      destruct h; apply IH; eauto.
  Qed.
  Lemma loop_safe : forall r t0 l hit md, (forall ch inv, In (ch, inv) l -> safe ch) ->
    comp_ray_loop r t0 l hit md = Exn \/ exists x, comp_ray_loop r t0 l hit md = Ret x.
  Proof.
    intros r t0. induction l as [|[ch inv] l IH]; intros hit md A; cbn [comp_ray_loop]; [eauto|].
    assert (A' : forall ch inv, In (ch, inv) l -> safe ch) by (intros ch1 inv1 I1; apply (A ch1 inv1); right; auto).
    match goal with |- context [ch_ray ch ?a ?b ?c ?d] => destruct (A ch inv (or_introl eq_refl) a b c d) as [X|[[h x] X]]; rewrite X; cbn [obind] end; auto.
    destruct h; apply IH; auto.
  Qed.
  Lemma loop_tot : forall r t0 l hit md, (forall ch inv, In (ch, inv) l -> tot ch) -> exists x, comp_ray_loop r t0 l hit md = Ret x.
  Proof.
    intros r t0. induction l as [|[ch inv] l IH]; intros hit md A; cbn [comp_ray_loop]; [eauto|].
    assert (A' : forall ch inv, In (ch, inv) l -> tot ch) by (intros ch1 inv1 I1; apply (A ch1 inv1); right; auto).
    match goal with |- context [ch_ray ch ?a ?b ?c ?d] => destruct (A ch inv (or_introl eq_refl) a b c d) as [[h x] X]; rewrite X; cbn [obind] end.
    destruct h; apply IH; auto.
  Qed.

  Lemma good_safe : forall s f, good s f -> safe (v_child s) /\ (snd f = false -> tot (v_child s)) /\ (fst (fst f) = true -> thr (v_child s)).
  Proof.
    intros [s|b|c] f G; cbn in G.
    - subst f. split; [intros r a b0 d; left; reflexivity|]. split; [discriminate|]. intros _ r a b0 d. reflexivity.
    - subst f. split; [intros r a b0 d; right; eexists; reflexivity|]. split; [|discriminate]. intros _ r a b0 d. eexists; reflexivity.
    - destruct G as [K [S [E D]]]. split; [|split].
      + intros r a b d. cbn [v_child comp_child ch_ray]. unfold comp_ray. destruct (box_ray _ _ _ _ _) as [h x]. destruct h; cbn [negb]; [|eauto].
        destruct (loop_safe r a (c_shapes c) false b S) as [X|[[h y] X]]; rewrite X; cbn [obind]; auto. destruct h; eauto.
      + intros F r a b d. cbn [v_child comp_child ch_ray]. unfold comp_ray. destruct (box_ray _ _ _ _ _) as [h x]. destruct h; cbn [negb]; [|eauto].
        destruct (loop_tot r a (c_shapes c) false b (E F)) as [[h y] X]; rewrite X; cbn [obind]. destruct h; eauto.
      + congruence.
  Qed.

  Lemma F2_nth {A B} (P : A -> B -> Prop) : forall l k, Forall2 P l k -> forall i x, nth_error l i = Some x -> exists y, nth_error k i = Some y /\ P x y.
  Proof. induction 1; intros [|i] z N; cbn in N; try discriminate; [injection N as <-; cbn; eauto|]. cbn. eauto. Qed.
  Lemma F2_upd : forall w fl, Forall2 good w fl -> forall i s f, i < List.length w -> good s f -> Forall2 good (upd w i s) (firstn i fl ++ f :: skipn (S i) fl).
  Proof.
    unfold upd. induction 1 as [|x y w fl H F IH]; intros [|i] s f L G; cbn in L |- *; try lia; constructor; auto. apply IH; auto. lia.
  Qed.
  Lemma F2_upd_same : forall w fl, Forall2 good w fl -> forall i s, i < List.length w -> (forall x f, nth_error w i = Some x -> good x f -> good s f) -> Forall2 good (upd w i s) fl.
  Proof.
    unfold upd. induction 1 as [|x y w fl H F IH]; intros [|i] s L G; cbn in L |- *; try lia; constructor; auto.
    - apply (G x); auto.
    - apply IH; [lia|]. intros z f N. apply G. exact N.
  Qed.

  Lemma step_good : forall w fl o w', Forall2 good w fl -> v_step w o = Ret w' -> Forall2 good w' (s_plain_step fl o).
  Proof.
    intros w fl o w' F H.
    assert (LT : forall i x, nth_error w i = Some x -> i < List.length w) by (intros i x N; apply nth_error_Some; congruence).
    assert (APP : forall s f, good s f -> Forall2 good (w ++ [s]) (fl ++ [f])) by (intros; apply Forall2_app; auto).
    destruct o as [|mn mx| |i m|i k|i|i k pose|i k pose]; cbn [v_step s_plain_step] in *.
    - injection H as <-. now apply APP.
    - injection H as <-. now apply APP.
    - injection H as <-. apply APP. cbn. repeat split; try discriminate; intros; contradiction.
    - destruct (nth_error w i) as [x|] eqn:N; [|discriminate]. cbn [or_ub obind] in H. destruct x as [x|b|c]; cbn in H; injection H as <-; auto.
      apply F2_upd_same; eauto. intros y f NY G. assert (y = VPlain x) by congruence. subst y. exact G.
    - destruct (nth_error w i) as [x|] eqn:N; [|discriminate]. destruct (nth_error w k) as [y|]; [|discriminate]. cbn [or_ub obind] in H. destruct x as [x|b|c]; cbn in H; injection H as <-; auto.
      apply F2_upd_same; eauto. intros z f NY G. assert (z = VPlain x) by congruence. subst z. exact G.
    - destruct (nth_error w i) as [x|] eqn:N; [|discriminate]. cbn [or_ub obind] in H. injection H as <-.
      apply F2_upd_same; eauto. intros y f NY G. assert (y = x) by congruence. subst y. destruct x as [x|b|c]; cbn [v_bbox snd]; try exact G; destruct (shape_bbox _ _); exact G.
    - destruct (nth_error w i) as [[x|b|c]|] eqn:N; try discriminate. destruct (nth_error w k) as [[y|o|c]|]; try discriminate. injection H as <-.
      apply F2_upd_same; eauto. intros z f NY G. assert (z = VBox b) by congruence. subst z. exact G.
    - destruct (nth_error w i) as [[x|b|c]|] eqn:N; try discriminate. destruct (nth_error w k) as [y|] eqn:NK; try discriminate.
      destruct (comp_add c (v_child y) pose) as [c'| | |] eqn:E; try discriminate. cbn [obind] in H. injection H as <-.
      destruct (F2_nth _ _ _ F _ _ N) as [[[ki di] ei] [FI [KI [SI [EI DI]]]]]. destruct (F2_nth _ _ _ F _ _ NK) as [[[kj dj] ej] [FJ GJ]].
      unfold s_flag. rewrite (nth_error_nth _ _ _ FI), (nth_error_nth _ _ _ FJ). apply F2_upd; eauto.
      assert (CS : c_shapes c' = c_shapes c ++ [(v_child y, tinverse pose)]).
      { unfold comp_add in E. destruct (getTriangles _) as [tm| | |]; try discriminate. cbn [obind] in E. destruct (fold_left _ _ _) as [[r mn] mx]. injection E as <-. reflexivity. }
      destruct (good_safe _ _ GJ) as [SJ [EJ DJ]]. cbn [fst snd] in *. cbn [good fst snd]. rewrite CS. split; [reflexivity|]. split; [|split].
      + intros ch i0 I. apply in_app_iff in I as [I|[I|[]]]; [eauto|]. injection I as <- <-. exact SJ.
      + intro O. apply orb_false_iff in O as [O1 O2]. intros ch i0 I. apply in_app_iff in I as [I|[I|[]]]; [eauto|]. injection I as <- <-. auto.
      + intro O. apply orb_true_iff in O as [O|O].
        * destruct (DI O) as [ch [i0 [I X]]]. exists ch, i0. split; auto. apply in_app_iff. auto.
        * exists (v_child y), (tinverse pose). split; [apply in_app_iff; right; left; reflexivity|auto].
  Qed.

  (** C97: after every program, a ray test on a plain shape throws whatever its mesh; on a box, and on a composite in which no plain
      shape occurs at any depth, it returns; on a composite to which a plain shape was added it throws exactly for the rays that hit the
      bounding box of the composite; on the others it throws or returns, with no other outcome *)
  Theorem C97_rays : forall ops w i s, v_run [] ops = Ret w -> nth_error w i = Some s ->
    exists plain direct deep, nth_error (s_plains ops) i = Some (plain, direct, deep) /\
    forall r t0 t1 d0,
      (plain = true -> v_ray s r t0 t1 d0 = Exn) /\
      (deep = false -> exists h d, v_ray s r t0 t1 d0 = Ret (h, d)) /\
      (direct = true -> (v_ray s r t0 t1 d0 = Exn <-> fst (box_ray (fst (v_bbox s)) r t0 t1 d0) = true)) /\
      (v_ray s r t0 t1 d0 = Exn \/ exists h d, v_ray s r t0 t1 d0 = Ret (h, d)).
  Proof.
    intros ops w i s H N.
    assert (G : forall ops w0 w1 fl, Forall2 good w0 fl -> v_run w0 ops = Ret w1 -> Forall2 good w1 (fold_left s_plain_step ops fl)).
    { clear. induction ops as [|o ops IH]; intros w0 w1 fl F H; cbn in H |- *; [injection H as <-; auto|].
      destruct (v_step w0 o) as [w| | |] eqn:E; try discriminate. cbn [obind] in H. eapply IH; eauto. eapply step_good; eauto. }
    pose proof (G _ _ _ _ (Forall2_nil _) H) as F. fold (s_plains ops) in F.
    destruct (F2_nth _ _ _ F _ _ N) as [[[k d] e] [FN GD]]. exists k, d, e. split; auto. intros r t0 t1 d0.
    assert (V : v_ray s r t0 t1 d0 = ch_ray (v_child s) r t0 t1 d0) by (destruct s; reflexivity).
    destruct (good_safe _ _ GD) as [S [E D]]. cbn [fst snd] in *. split; [|split; [|split]].
    - intro K. rewrite V. now apply D.
    - intro K. rewrite V. destruct (E K r t0 t1 d0) as [[h x] X]. eauto.
    - intro K. destruct s as [s|b|c]; cbn in GD; try (injection GD; intros; congruence).
      destruct GD as [_ [SC [_ DC]]]. cbn [v_ray v_bbox fst comp_bbox]. unfold comp_ray, comp_bbox. destruct (box_ray (c_bb c) r t0 t1 d0) as [h x]. destruct h; cbn [negb fst].
      + rewrite (loop_exn r t0 (c_shapes c) false t1 SC (DC K)). cbn. tauto.
      + split; discriminate.
    - rewrite V. destruct (S r t0 t1 d0) as [X|[[h x] X]]; eauto.
  Qed.

  (** C97: setMesh replaces the mesh of a plain shape by the one given; caught, it has no effect on a box or composite *)
  Theorem C97_setMesh : forall w i s m, nth_error w i = Some s ->
    exists w', v_step w (VSetMesh i m) = Ret w' /\ List.length w' = List.length w /\
      match s with
      | VPlain _ => exists s', nth_error w' i = Some (VPlain s') /\ s_mesh s' = m
      | _ => w' = w
      end.
  Proof.
    intros w i s m N. assert (L : i < List.length w) by (apply nth_error_Some; congruence). cbn [v_step]. rewrite N. cbn [or_ub obind].
    destruct s as [s|b|c]; cbn; eexists; (split; [reflexivity|]); auto. split.
    - unfold upd. rewrite app_length, firstn_length_le by lia. cbn [List.length]. rewrite skipn_length. lia.
    - rewrite upd_nth by exact L. rewrite Nat.eqb_refl. eexists. split; reflexivity.
  Qed.
End Dispatch.
Print Assumptions C97_counts.
Print Assumptions C97_others.
Print Assumptions C97_rays.
Print Assumptions C97_setMesh.

(** the programs that construct boxes with ordered bounds *)
Definition s_ordered_op (o : vop R) : Prop := match o with VNewBox mn mx => s_ordered mn mx | _ => True end.
(** C97: after every program, the bounding box of a box (through the interface) is the smallest axis-aligned box around its mesh,
    also after it enclosed other boxes *)
Theorem C97_bbox : forall ops w i b, Forall s_ordered_op ops -> v_run [] ops = Ret w -> nth_error w i = Some (VBox b) ->
  let bb := fst (v_bbox (VBox b)) in
  (forall p, In p (m_points (v_mesh (VBox b))) -> s_in_box (b_min bb) (b_max bb) p) /\
  (forall lo hi, (forall p, In p (m_points (v_mesh (VBox b))) -> s_in_box lo hi p) -> forall q, s_in_box (b_min bb) (b_max bb) q -> s_in_box lo hi q).
Proof.
  intros ops w i b FO H N bb.
  pose (I := fun s : vshape R => match s with VBox b => box_inv b | _ => True end).
  assert (U : forall w i s, Forall I w -> I s -> Forall I (upd w i s)).
  { clear. intros w i s F S. rewrite <- (firstn_skipn i w) in F. apply Forall_app in F as [A B]. unfold upd. apply Forall_app. split; auto. constructor; auto.
    clear A. revert i B. induction w as [|x w IH]; intros [|i] B; cbn in *; auto. inversion B; auto. }
  assert (NI : forall w i s, Forall I w -> nth_error w i = Some s -> I s).
  { clear. intros w i s F N. rewrite Forall_forall in F. apply F. eapply nth_error_In; eauto. }
  assert (G : forall ops w0 w1, Forall s_ordered_op ops -> Forall I w0 -> v_run w0 ops = Ret w1 -> Forall I w1).
  { clear - U NI. induction ops as [|o ops IH]; intros w0 w1 FO F H; cbn in H; [injection H as <-; auto|]. inversion FO as [|? ? HO FO']; subst.
    destruct (v_step w0 o) as [w| | |] eqn:E; try discriminate. cbn [obind] in H. cut (Forall I w); [intro FW; exact (IH _ _ FO' FW H)|].
    clear IH H FO'. destruct o as [|mn mx| |i m|i k|i|i k pose|i k pose]; cbn [v_step] in E.
    - injection E as <-. apply Forall_app. split; [exact F|]. constructor; [exact Logic.I|constructor].
    - injection E as <-. apply Forall_app. split; [exact F|]. constructor; [|constructor]. apply make_inv. exact HO.
    - injection E as <-. apply Forall_app. split; [exact F|]. constructor; [exact Logic.I|constructor].
    - destruct (nth_error w0 i) as [x|] eqn:N; [|discriminate]. cbn [or_ub obind] in E. destruct x; cbn in E; injection E as <-; (exact F || (apply U; [exact F|exact Logic.I])).
    - destruct (nth_error w0 i) as [x|] eqn:N; [|discriminate]. destruct (nth_error w0 k) as [y|]; [|discriminate]. cbn [or_ub obind] in E. destruct x; cbn in E; injection E as <-; (exact F || (apply U; [exact F|exact Logic.I])).
    - destruct (nth_error w0 i) as [x|] eqn:N; [|discriminate]. cbn [or_ub obind] in E. injection E as <-. apply U; auto.
      pose proof (NI _ _ _ F N) as X. destruct x as [x|b|c]; cbn [v_bbox snd]; try exact X; destruct (shape_bbox _ _); exact X.
    - destruct (nth_error w0 i) as [[x|b|c]|] eqn:N; try discriminate. destruct (nth_error w0 k) as [[y|o|c]|] eqn:NK; try discriminate. injection E as <-.
      apply U; auto. apply (enclose_spec b o pose); [exact (NI _ _ _ F N)|exact (NI _ _ _ F NK)].
    - destruct (nth_error w0 i) as [[x|b|c]|] eqn:N; try discriminate. destruct (nth_error w0 k) as [y|]; try discriminate.
      destruct (comp_add _ _ _); try discriminate. cbn [obind] in E. injection E as <-. apply U; [exact F|exact Logic.I]. }
  destruct (NI _ _ _ (G _ _ _ FO (Forall_nil _) H) N) as [O P C]. cbn [v_mesh v_bbox fst] in *. unfold box_bbox in bb. subst bb. split; auto.
  intros lo hi A q Q. destruct (A _ (C (b_min b) ltac:(left; now destruct (b_min b)))) as [? [? ?]].
  destruct (A _ (C (b_max b) ltac:(do 7 right; left; now destruct (b_max b)))) as [? [? ?]]. unfold s_in_box in *. lra.
Qed.
Print Assumptions C97_bbox.

(** non-vacuity, on doubles: a plain shape gets the mesh of a box, both are put into a composite, the box encloses a second one and
    setMesh is tried on the composite; the composite has the 24 triangles added, a ray through it throws, a ray past it returns *)
Definition ex_prog : list (vop F64) :=
  let p := T3 (M3 (nofZ 1) n0 n0 n0 (nofZ 1) n0 n0 n0 (nofZ 1)) (V3 (nofZ 5) n0 n0) in
  [VNew; VNewBox (V3 (nofZ (-1)) (nofZ (-1)) (nofZ (-1))) (V3 (nofZ 1) (nofZ 1) (nofZ 1)); VNewComp; VSetMeshOf 0 1; VBBox 0; VAdd 2 0 p; VAdd 2 1 p;
   VEnclose 1 1 p; VSetMesh 2 mesh_new; VNewComp; VAdd 3 1 p].
Example C97_nonvacuous :
  s_counts ex_prog = [(KPlain, 12); (KBox, 24); (KComp, 24); (KComp, 24)]%nat /\
  s_plains ex_prog = [(true, false, true); (false, false, false); (false, true, true); (false, false, false)] /\
  match v_run [] ex_prog with
  | Ret [_; b; c; d] =>
      let hits := ray_make (V3 n0 n0 n0) (V3 (nofZ 100) (nofZ 1) (nofZ 1)) in
      let misses := ray_make (V3 n0 (nofZ 9) n0) (V3 (nofZ 100) (nofZ 1) (nofZ 1)) in
      let exn o := match o with Exn => true | _ => false end in
      let ret (o : outcome (bool * F64)) := match o with Ret (h, _) => h | _ => false end in
      let no (o : outcome (bool * F64)) := match o with Ret (h, _) => negb h | _ => false end in
      exn (v_ray c hits n0 (nofZ 100) n0) && no (v_ray c misses n0 (nofZ 100) n0) &&
      ret (v_ray d hits n0 (nofZ 100) n0) && negb (v_empty c) && neqb (vx (b_max (fst (v_bbox b)))) (nofZ 6)
  | _ => false
  end = true.
Proof. split; [reflexivity|]. split; [reflexivity|]. vm_compute. reflexivity. Qed.
