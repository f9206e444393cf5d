(** * Depth camera: sorting, whole renderings, map reservation; for every scalar type *)
From Coq Require Import ZArith NArith List Bool Lia Reals Lra Permutation.
From Flocq Require Import Core.Raux.
From Verif Require Import Num NumOrd MathTypes Outcome Mesh P_Tac Depth P_Depth P_Depth2 P_Laser2.
Import ListNotations.

Section Sort.
  Context {T : Type} {NT : Num T} {NO : NumOrd T} {NTr : NumTrunc T}.
  Lemma sort_perm : forall (f : vec3 T -> T) a b c p q r, sort3 f a b c = (p, q, r) -> Permutation [a; b; c] [p; q; r].
  Proof.
    intros f a b c p q r H. unfold sort3 in H.
    destruct (nltb (f c) (f a)).
    - destruct (nltb (f b) (f c)); (destruct (nltb _ _) in H); injection H as <- <- <-.
      + change [a; b; c] with ([a] ++ [b; c]). change [b; a; c] with ([b] ++ [a] ++ [c]). rewrite app_assoc. apply (Permutation_app_tail [c] (Permutation_app_comm [a] [b])).
      + change [b; c; a] with ([b; c] ++ [a]). apply (Permutation_app_comm [a] [b; c]).
      + transitivity [c; a; b]; [apply (Permutation_app_comm [a; b] [c])|]. reflexivity.
      + transitivity [c; a; b]; [apply (Permutation_app_comm [a; b] [c])|]. constructor. constructor.
    - destruct (nltb (f b) (f a)); (destruct (nltb _ _) in H); injection H as <- <- <-.
      + apply (Permutation_app_comm [a] [b; c]).
      + constructor.
      + constructor. constructor.
      + reflexivity.
  Qed.
  Lemma sort_sorted : forall (f : vec3 T -> T) a b c p q r, sort3 f a b c = (p, q, r) -> (forall v, v = a \/ v = b \/ v = c -> neqb (f v) (f v) = true) ->
    nleb (f p) (f q) = true /\ nleb (f q) (f r) = true.
  Proof.
    intros f a b c p q r H K.
    assert (KA := K a (or_introl eq_refl)). assert (KB := K b (or_intror (or_introl eq_refl))). assert (KC := K c (or_intror (or_intror eq_refl))).
    apply neqb_key in KA as [ka [KA _]]. apply neqb_key in KB as [kb [KB _]]. apply neqb_key in KC as [kc [KC _]].
    assert (LT : forall u v ku kv, nkey (f u) = Some ku -> nkey (f v) = Some kv -> nltb (f u) (f v) = true -> ext_le ku kv).
    { intros u v ku kv U V L. apply nltb_key in L as [x [y [X [Y L]]]]. left. congruence. }
    assert (GE : forall u v ku kv, nkey (f u) = Some ku -> nkey (f v) = Some kv -> nltb (f u) (f v) = false -> ext_le kv ku).
    { intros u v ku kv U V L. destruct (ext_total ku kv) as [G|[->|G]]; [|right; auto|left; auto]. assert (nltb (f u) (f v) = true) by (apply nltb_key; eauto). congruence. }
    assert (LE : forall u v ku kv, nkey (f u) = Some ku -> nkey (f v) = Some kv -> ext_le ku kv -> nleb (f u) (f v) = true) by (intros; apply nleb_key; eauto).
    assert (TR : forall x y z, ext_le x y -> ext_le y z -> ext_le x z) by (intros x y z [L|L] [L'|L']; subst; auto; [left; eapply ext_lt_trans; eauto|left; auto|left; auto|right; auto]).
    unfold sort3 in H. destruct (nltb (f c) (f a)) eqn:E1.
    - destruct (nltb (f b) (f c)) eqn:E2.
      + destruct (nltb (f a) (f c)) eqn:E3; injection H as <- <- <-.
        * split; [apply (LE b a kb ka)|apply (LE a c ka kc)]; eauto.
        * split; [apply (LE b c kb kc)|apply (LE c a kc ka)]; eauto.
      + destruct (nltb (f a) (f b)) eqn:E3; injection H as <- <- <-.
        * split; [apply (LE c a kc ka)|apply (LE a b ka kb)]; eauto.
        * split; [apply (LE c b kc kb)|apply (LE b a kb ka)]; eauto.
    - destruct (nltb (f b) (f a)) eqn:E2.
      + destruct (nltb (f c) (f a)) eqn:E3; injection H as <- <- <-; [congruence|].
        split; [apply (LE b a kb ka)|apply (LE a c ka kc)]; eauto.
      + destruct (nltb (f c) (f b)) eqn:E3; injection H as <- <- <-.
        * split; [apply (LE a c ka kc)|apply (LE c b kc kb)]; eauto.
        * split; [apply (LE a b ka kb)|apply (LE b c kb kc)]; eauto.
  Qed.
  Lemma toint_mono : forall (a b : T) x y, nleb a b = true -> toint a = Some x -> toint b = Some y -> (x <= y)%Z.
  Proof.
    intros a b x y L A B. apply nleb_key in L as [u [v [U [V L]]]]. apply toint_key in A as [r [K [-> _]]]. apply toint_key in B as [r' [K' [-> _]]].
    assert (u = Fin r) by congruence. assert (v = Fin r') by congruence. subst. apply Ztrunc_le. destruct L as [L|L]; [left; exact L|injection L as ->; right; auto].
  Qed.
  Lemma toint_real : forall (a : T) x, toint a = Some x -> neqb a a = true.
  Proof. intros a x H. apply toint_key in H as [r [K _]]. apply neqb_key. eauto. Qed.
  (** the span of the sorted rows is that of the unsorted ones *)
  Lemma sort_span : forall a b c p q r (y1 y2 y3 x y z : Z), sort3 vy a b c = (p, q, r) -> toint (vy a) = Some y1 -> toint (vy b) = Some y2 -> toint (vy c) = Some y3 ->
    toint (vy p) = Some x -> toint (vy q) = Some y -> toint (vy r) = Some z -> (x <= y <= z)%Z /\ x = Z.min y1 (Z.min y2 y3) /\ z = Z.max y1 (Z.max y2 y3).
  Proof.
    intros a b c p q r y1 y2 y3 x y z S A B C P Q R.
    destruct (sort_sorted vy a b c p q r S) as [L1 L2]. { intros v [->|[->| ->]]; eapply toint_real; eauto. }
    pose proof (toint_mono _ _ _ _ L1 P Q). pose proof (toint_mono _ _ _ _ L2 Q R). split; [lia|].
    pose proof (sort_perm _ _ _ _ _ _ _ S) as PM. apply (Permutation_map (fun v => toint (vy v))) in PM. cbn [map] in PM. rewrite A, B, C, P, Q, R in PM.
    assert (I : forall k, In (Some k) [Some y1; Some y2; Some y3] <-> In (Some k) [Some x; Some y; Some z]).
    { intros k. split; apply Permutation_in; auto. symmetry. auto. }
    cbn [In] in I. pose proof (proj1 (I y1) ltac:(auto)). pose proof (proj1 (I y2) ltac:(auto)). pose proof (proj1 (I y3) ltac:(auto)).
    pose proof (proj2 (I x) ltac:(auto)). pose proof (proj2 (I z) ltac:(auto)).
    assert (INJ : forall u v : Z, Some u = Some v <-> u = v) by (intros; split; congruence). rewrite !INJ in *. lia.
  Qed.
End Sort.

Section Whole.
  Context {T : Type} {NT : Num T} {NO : NumOrd T} {NTr : NumTrunc T}.
  Lemma pixels_app : forall S (rp : S -> pixel T -> outcome S) ps qs s, draw_pixels rp s (ps ++ qs) = obind (draw_pixels rp s ps) (fun s' => draw_pixels rp s' qs).
  Proof. intros S rp. induction ps as [|p ps IH]; intros qs s; [reflexivity|]. cbn [app draw_pixels]. destruct (rp s p); cbn [obind]; auto. Qed.
  (** whatever the RenderResult does, it is handed pixels inside the image, of existing triangles *)
  Lemma loop_pixels : forall S (rp : S -> pixel T -> outcome S) stop c cull w h pts ts i s s', render_loop rp stop c cull w h pts ts i s = Ret s' ->
    exists ps, draw_pixels rp s ps = Ret s' /\ forall p, In p ps -> in_image w h p /\ exists k, (i <= k < i + Z.of_nat (length ts))%Z /\ px_i p = s32 k.
  Proof.
    intros S rp stop c cull w h pts. induction ts as [|t ts IH]; intros i s s' H; cbn [render_loop] in H.
    - injection H as <-. exists []. split; auto. intros p [].
    - destruct (point_at pts (ti1 t)) as [p1|]; [|discriminate]. destruct (point_at pts (ti2 t)) as [p2|]; [|discriminate]. destruct (point_at pts (ti3 t)) as [p3|]; [|discriminate]. cbn [or_ub obind] in H.
      destruct (draw_all _ _ _ _ _ _) as [ps| | |] eqn:D; try discriminate. cbn [obind] in H. destruct (draw_pixels rp s ps) as [s1| | |] eqn:P; try discriminate. cbn [obind] in H.
      assert (PI : forall p, In p ps -> in_image w h p /\ exists k, (i <= k < i + Z.of_nat (length (t :: ts)))%Z /\ px_i p = s32 k).
      { intros p I. destruct (draw_all_in _ _ _ _ _ _ _ _ D I) as [A B]. split; auto. exists i. cbn [length]. lia. }
      destruct (stop s1).
      + injection H as <-. exists ps. auto.
      + apply IH in H as [qs [Q QI]]. exists (ps ++ qs). split; [rewrite pixels_app, P; exact Q|]. intros p I. apply in_app_iff in I as [I|I]; auto.
        destruct (QI p I) as [A [k [B C]]]. split; auto. exists k. cbn [length]. lia.
  Qed.
  (** the pixels of a rendering that is not stopped do not depend on the RenderResult *)
  Definition pixels_of (c : cam T) (m : mesh T) (pose : trans3 T) (cull : bool) (w h : Z) : outcome (list (pixel T)) :=
    cam_render (fun l p => Ret (l ++ [p])) (fun _ => false) c m pose cull w h [].
  Lemma collect : forall ps (l : list (pixel T)), draw_pixels (fun l p => Ret (l ++ [p])) l ps = Ret (l ++ ps).
  Proof. induction ps as [|p ps IH]; intros l; cbn [draw_pixels]; [rewrite app_nil_r; auto|]. cbn [obind]. rewrite IH, <- app_assoc. reflexivity. Qed.
  Lemma loop_collect : forall S (rp : S -> pixel T -> outcome S) c cull w h pts ts i s l l', render_loop (fun l p => Ret (l ++ [p])) (fun _ => false) c cull w h pts ts i l = Ret l' ->
    exists ps, l' = l ++ ps /\ render_loop rp (fun _ => false) c cull w h pts ts i s = draw_pixels rp s ps.
  Proof.
    intros S rp c cull w h pts. induction ts as [|t ts IH]; intros i s l l' H; cbn [render_loop] in H |- *.
    - injection H as <-. exists []. rewrite app_nil_r. auto.
    - destruct (point_at pts (ti1 t)) as [p1|]; [|discriminate]. destruct (point_at pts (ti2 t)) as [p2|]; [|discriminate]. destruct (point_at pts (ti3 t)) as [p3|]; [|discriminate]. cbn [or_ub obind] in *.
      destruct (draw_all _ _ _ _ _ _) as [ps| | |]; try discriminate. cbn [obind] in *. rewrite collect in H. cbn [obind] in H.
      destruct (draw_pixels rp s ps) as [s1| | |] eqn:P; cbn [obind].
      + destruct (IH (i + 1)%Z s1 _ _ H) as [qs [-> Q]]. exists (ps ++ qs). rewrite app_assoc. split; auto. rewrite pixels_app, P. exact Q.
      + destruct (IH (i + 1)%Z s _ _ H) as [qs [-> Q]]. exists (ps ++ qs). rewrite app_assoc. split; auto. rewrite pixels_app, P. reflexivity.
      + destruct (IH (i + 1)%Z s _ _ H) as [qs [-> Q]]. exists (ps ++ qs). rewrite app_assoc. split; auto. rewrite pixels_app, P. reflexivity.
      + destruct (IH (i + 1)%Z s _ _ H) as [qs [-> Q]]. exists (ps ++ qs). rewrite app_assoc. split; auto. rewrite pixels_app, P. reflexivity.
  Qed.
  Lemma render_pixels_of : forall S (rp : S -> pixel T -> outcome S) c m pose cull w h s ps, pixels_of c m pose cull w h = Ret ps ->
    cam_render rp (fun _ => false) c m pose cull w h s = draw_pixels rp s ps.
  Proof.
    intros S rp c m pose cull w h s ps H. unfold pixels_of, cam_render in *. destruct (nltb _ _); [injection H as <-; reflexivity|].
    destruct (existsb _ _); [|injection H as <-; reflexivity]. destruct (loop_collect S rp _ _ _ _ _ _ _ s _ _ H) as [qs [E F]]. cbn [app] in E. subst. exact F.
  Qed.
  Lemma pixels_of_in : forall c m pose cull w h ps, pixels_of c m pose cull w h = Ret ps ->
    forall p, In p ps -> in_image w h p /\ exists k, (0 <= k < Z.of_nat (length (m_tris m)))%Z /\ px_i p = s32 k.
  Proof.
    intros c m pose cull w h ps H. unfold pixels_of, cam_render in H. destruct (nltb _ _); [injection H as <-; intros p []|].
    destruct (existsb _ _); [|injection H as <-; intros p []]. apply loop_pixels in H as [qs [Q QI]]. rewrite collect in Q. injection Q as <-. exact QI.
  Qed.
End Whole.

(** ** map reservation *)
Lemma vresize_length : forall A (l : list A) n a, length (vresize l n a) = n.
Proof. intros. unfold vresize. rewrite app_length, firstn_length, repeat_length. lia. Qed.
Lemma vresize_in : forall A (l : list A) n a b, In b (vresize l n a) -> In b l \/ b = a.
Proof. intros A l n a b H. unfold vresize in H. apply in_app_iff in H as [H|H]; [left; rewrite <- (firstn_skipn n l); apply in_or_app; auto|right; apply repeat_spec in H; auto]. Qed.
Definition all_tall {A : Type} (m : list (list A)) (r : nat) : Prop := forall c, In c m -> (r <= length c)%nat.
Lemma reserve_length : forall A (m : list (list A)) c r a, length (reserve m c r a) = c.
Proof.
  intros A m c r a. unfold reserve. destruct m as [|c0 m]; [apply vresize_length|]. destruct (Nat.eqb_spec (length (c0 :: m)) c) as [E|E]; cbn [negb orb]; [|apply vresize_length].
  destruct (negb _); [apply vresize_length|auto].
Qed.
Lemma reserve_tall : forall A (m : list (list A)) c r a, all_tall m r -> all_tall (reserve m c r a) r.
Proof.
  intros A m c r a H. assert (V : all_tall (vresize m c (repeat a r)) r). { intros col I. apply vresize_in in I as [I| ->]; auto. rewrite repeat_length. auto. }
  unfold reserve. destruct m as [|c0 m]; auto. destruct (_ || _)%bool; auto.
Qed.
Lemma tall_sized : forall A (m : list (list A)) r, all_tall m r -> sized m (Z.of_nat (length m)) (Z.of_nat r).
Proof.
  intros A m r H i j I J. destruct (nth_error m (Z.to_nat i)) as [c|] eqn:N; [|apply nth_error_None in N; lia]. pose proof (H c (nth_error_In _ _ N)).
  destruct (nth_error c (Z.to_nat j)) as [a|] eqn:N'; [|apply nth_error_None in N'; lia]. exists a. apply get2_inv. split; [lia|]. split; [lia|]. eauto.
Qed.
Lemma upd_in : forall A (l : list A) i a b, In b (upd l i a) -> In b l \/ b = a.
Proof. induction l as [|c l IH]; intros [|i] a b H; cbn in H; auto; [destruct H; auto; left; right; auto|]. destruct H as [->|H]; [left; left; auto|]. apply IH in H as [H|H]; auto. left; right; auto. Qed.
Lemma set2_tall : forall A (m m' : list (list A)) i j a r, set2 m i j a = Ret m' -> all_tall m r -> all_tall m' r.
Proof.
  intros A m m' i j a r H TL. unfold set2 in H. destruct (get2 m i j) as [b| | |] eqn:G; try discriminate. cbn [obind] in H. injection H as <-.
  apply get2_inv in G as [_ [_ [row [N _]]]]. intros c I. apply upd_in in I as [I| ->]; auto. rewrite upd_length. rewrite (nth_error_nth _ _ [] N). apply TL. eapply nth_error_In; eauto.
Qed.
Section Maps.
  Context {T : Type} {NT : Num T}.
  Definition maps_tall (s : drr T) (r : nat) : Prop := all_tall (d_pmap s) r /\ all_tall (d_tmap s) r.
  Lemma pixel_tall : forall (s s' : drr T) p r, renderPixel s p = Ret s' -> maps_tall s r -> maps_tall s' r.
  Proof.
    intros s s' p r H [A B]. unfold renderPixel in H. destruct (get2 _ _ _) as [old| | |]; try discriminate. cbn [obind] in H. destruct (_ || _)%bool; [|injection H as <-; split; auto].
    destruct (set2 (d_img s) _ _ _) as [im| | |]; try discriminate. cbn [obind] in H.
    destruct (match d_ptr s with Some _ => _ | None => _ end) as [pm| | |] eqn:P; try discriminate. cbn [obind] in H.
    destruct (match d_tmap s with [] => _ | _ :: _ => _ end) as [tm| | |] eqn:Q; try discriminate. cbn [obind] in H. injection H as <-. split; cbn [d_pmap d_tmap].
    - destruct (d_ptr s); [eapply set2_tall; eauto|]. injection P as <-. auto.
    - destruct (d_tmap s) as [|c0 cs]; [injection Q as <-; intros c []|]. eapply set2_tall; eauto.
  Qed.
  Lemma pixels_tall : forall ps (s s' : drr T) r, draw_pixels renderPixel s ps = Ret s' -> maps_tall s r -> maps_tall s' r.
  Proof.
    induction ps as [|p ps IH]; intros s s' r H M; [injection H as <-; auto|]. cbn [draw_pixels] in H. destruct (renderPixel s p) as [s1| | |] eqn:E; try discriminate. cbn [obind] in H.
    eapply IH; eauto. eapply pixel_tall; eauto.
  Qed.
End Maps.
