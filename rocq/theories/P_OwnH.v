(** * Height map nodes in memory: every tree occupies one contiguous range of blocks *)
From Coq Require Import ZArith NArith List Bool Lia.
From Verif Require Import Num MathTypes Outcome Mesh Box Octree HeightMap Own P_Own.
Import ListNotations.

Section OwnH.
  Context {T : Type} {NT : Num T}.
  (** number of nodes of a tree *)
  Fixpoint hsize (n : hnode T) : nat :=
    match n with HNull => 0 | HNode _ _ c0 c1 c2 c3 => S (hsize c0 + hsize c1 + hsize c2 + hsize c3) end.
  Definition hptr (lo : nat) (n : hnode T) : option nat := match n with HNull => None | HNode _ _ _ _ _ _ => Some lo end.
  Fixpoint flat (lo : nat) (n : hnode T) : list (hcell T) :=
    match n with
    | HNull => []
    | HNode b o c0 c1 c2 c3 =>
      let l0 := (lo + 1)%nat in let l1 := (l0 + hsize c0)%nat in let l2 := (l1 + hsize c1)%nat in let l3 := (l2 + hsize c2)%nat in
      HCell b o (hptr l0 c0) (hptr l1 c1) (hptr l2 c2) (hptr l3 c3) :: flat l0 c0 ++ flat l1 c1 ++ flat l2 c2 ++ flat l3 c3
    end.
  Lemma flat_len : forall n lo, length (flat lo n) = hsize n.
  Proof. induction n as [|b o c0 I0 c1 I1 c2 I2 c3 I3]; intros lo; cbn [flat hsize length]; auto. rewrite !app_length, I0, I1, I2, I3. lia. Qed.
  Lemma upd_mid : forall A (h r : heap A) x y, upd (h ++ x :: r) (length h) y = h ++ y :: r.
  Proof. intros A h r x y. induction h as [|z h IH]; cbn; auto. now rewrite IH. Qed.
  Lemma live_mid : forall A (h r : heap A) x, live (h ++ x :: r) (length h) = x.
  Proof. intros. unfold live. rewrite nth_error_app2, Nat.sub_diag by lia. cbn. destruct x; auto. Qed.
  Lemma live_mid' : forall A (h r : heap A) x k, length h = k -> live (h ++ x :: r) k = x.
  Proof. intros A h r x k <-. apply live_mid. Qed.
  Lemma upd_mid' : forall A (h r : heap A) x y k, length h = k -> upd (h ++ x :: r) k y = h ++ y :: r.
  Proof. intros A h r x y k <-. apply upd_mid. Qed.
  Lemma mlen : forall A (l : list A) h, length (h ++ map Some l) = (length h + length l)%nat.
  Proof. intros. now rewrite app_length, map_length. Qed.

  Lemma build_flat : forall n (h : heap (hcell T)), h_build h n = (hptr (length h) n, h ++ map Some (flat (length h) n)).
  Proof.
    induction n as [|b o c0 I0 c1 I1 c2 I2 c3 I3]; intros h; cbn [h_build flat hptr map].
    - now rewrite app_nil_r.
    - cbn [alloc]. rewrite I0, I1, I2, I3. rewrite !app_length. cbn [length]. rewrite !map_length, !flat_len.
      f_equal. rewrite <- !app_assoc. cbn [app]. rewrite upd_mid. cbv zeta. rewrite !map_app. now rewrite <- ?app_assoc, ?Nat.add_assoc.
  Qed.

  Definition seg (h : heap (hcell T)) (lo : nat) (l : list (hcell T)) : Prop := forall i c, nth_error l i = Some c -> live h (lo + i) = Some c.
  Lemma seg_app : forall h lo l1 l2, seg h lo (l1 ++ l2) -> seg h lo l1 /\ seg h (lo + length l1) l2.
  Proof.
    intros h lo l1 l2 S. split; intros i c H.
    - apply S. rewrite nth_error_app1; auto. apply nth_error_Some. congruence.
    - replace (lo + length l1 + i)%nat with (lo + (length l1 + i))%nat by lia. apply S. rewrite nth_error_app2 by lia. now replace (length l1 + i - length l1)%nat with i by lia.
  Qed.
  Lemma seg_cons : forall h lo c l, seg h lo (c :: l) -> live h lo = Some c /\ seg h (lo + 1) l.
  Proof.
    intros h lo c l SG. split.
    - specialize (SG 0%nat c eq_refl). now rewrite Nat.add_0_r in SG.
    - intros i c' H. replace (lo + 1 + i)%nat with (lo + S i)%nat by lia. apply SG. exact H.
  Qed.
  Lemma seg_ext : forall h h' lo l, seg h lo l -> (forall a, (a < length h)%nat -> live h' a = live h a) -> seg h' lo l.
  Proof. intros h h' lo l S E i c H. specialize (S i c H). rewrite E; auto. eapply live_lt; eauto. Qed.
  Lemma copy_flat : forall n g (h : heap (hcell T)) lo, n <> HNull -> seg h lo (flat lo n) -> (hsize n <= g)%nat ->
    h_copy g h lo = Ret (length h, h ++ map Some (flat (length h) n)).
  Proof.
    induction n as [|b o c0 I0 c1 I1 c2 I2 c3 I3]; intros g h lo NN S L; [contradiction|].
    cbn [hsize] in L. destruct g as [|g]; [lia|]. cbn [flat] in S. cbv zeta in S.
    apply seg_cons in S. destruct S as [LA S]. apply seg_app in S. destruct S as [S0 S]. apply seg_app in S. destruct S as [S1 S].
    apply seg_app in S. destruct S as [S2 S3]. rewrite !flat_len in *.
    cbn [h_copy]. rewrite (rd_live _ _ _ LA). cbn [obind alloc hc_box hc_occ hkids hc_k0 hc_k1 hc_k2 hc_k3].
    match goal with |- context [ofold ?f _ _] => set (B := f) end.
    assert (LO : forall (cc : hcell T) R a, (a < length h)%nat -> live (h ++ Some cc :: map Some R) a = live h a).
    { intros cc R a LT. unfold live. now rewrite nth_error_app1. }
    assert (STEP : forall c lc i cc R,
      (forall h lo, c <> HNull -> seg h lo (flat lo c) -> (hsize c <= g)%nat -> h_copy g h lo = Ret (length h, h ++ map Some (flat (length h) c))) ->
      (hsize c <= g)%nat -> seg h lc (flat lc c) -> hset cc i None = cc ->
      B (h ++ Some cc :: map Some R) (i, hptr lc c) = Ret (h ++ Some (hset cc i (hptr (length h + 1 + length R) c)) :: map Some (R ++ flat (length h + 1 + length R) c))).
    { intros c lc i cc R IC LC SC HC. unfold B. cbn [fst snd]. destruct c as [|b' o' d0 d1 d2 d3].
      - cbn [hptr flat]. now rewrite app_nil_r, HC.
      - cbn [hptr]. rewrite IC; auto; [|discriminate|eapply seg_ext; [exact SC|]; intros; apply LO; auto].
        cbn [obind]. rewrite <- app_assoc. cbn [app]. rewrite <- map_app.
        replace (length (h ++ Some cc :: map Some R)) with (length h + 1 + length R)%nat by (rewrite app_length; cbn [length]; rewrite map_length; lia).
        set (k := (length h + 1 + length R)%nat). rewrite (rd_live _ _ cc) by apply live_mid. cbn [obind].
        rewrite (wr_live _ _ cc) by apply live_mid. now rewrite upd_mid. }
    clearbody B. pose proof (STEP c0 (lo + 1)%nat 0%nat (HCell b o None None None None) []) as Q0. cbn [map hset length] in Q0.
    cbn [ofold hkids hc_k0 hc_k1 hc_k2 hc_k3]. rewrite Q0; auto; try lia. cbn [obind]. clear Q0. rewrite app_nil_l.
    set (k0 := hptr _ c0).
    rewrite STEP; auto; try lia. cbn [obind hset].
    set (k1 := hptr _ c1).
    rewrite STEP; auto; try lia. cbn [obind hset].
    set (k2 := hptr _ c2).
    rewrite STEP; auto; try lia. cbn [obind hset].
    subst k0 k1 k2. cbn [flat map]. cbv zeta. rewrite !app_length, !flat_len. rewrite ?Nat.add_0_r, ?Nat.add_assoc, <- !app_assoc. reflexivity.
  Qed.

  Lemma ray_flat : forall n g (h : heap (hcell T)) lo r t0 t1 d, n <> HNull -> seg h lo (flat lo n) -> (hsize n <= g)%nat ->
    h_ray g h lo r t0 t1 d = Ret (hnode_ray n r t0 t1 d).
  Proof.
    induction n as [|b o c0 I0 c1 I1 c2 I2 c3 I3]; intros g h lo r t0 t1 d NN SG L; [contradiction|].
    cbn [hsize] in L. destruct g as [|g]; [lia|]. cbn [flat] in SG. cbv zeta in SG.
    apply seg_cons in SG. destruct SG as [LA SG]. apply seg_app in SG. destruct SG as [S0 SG]. apply seg_app in SG. destruct SG as [S1 SG].
    apply seg_app in SG. destruct SG as [S2 S3]. rewrite !flat_len in *.
    cbn [h_ray hnode_ray]. rewrite (rd_live _ _ _ LA). cbn [obind hc_box hc_occ hc_k0 hc_k1 hc_k2 hc_k3].
    destruct (box_ray b r t0 t1 d) as [hit d0]. destruct (negb hit); auto. destruct o; auto. cbv zeta.
    set (F := fun k d => h_ray g h k r t0 t1 d).
    set (R := fun (c : hnode T) lc => c <> HNull -> forall d, F lc d = Ret (hnode_ray c r t0 t1 d)).
    assert (R0 : R c0 (lo + 1)%nat) by (intros N d'; apply I0; auto; lia).
    assert (R1 : R c1 (lo + 1 + hsize c0)%nat) by (intros N d'; apply I1; auto; lia).
    assert (R2 : R c2 (lo + 1 + hsize c0 + hsize c1)%nat) by (intros N d'; apply I2; auto; lia).
    assert (R3 : R c3 (lo + 1 + hsize c0 + hsize c1 + hsize c2)%nat) by (intros N d'; apply I3; auto; lia).
    assert (OR : forall l, (forall c lc, In (c, lc) l -> R c lc /\ seg h lc (flat lc c)) -> forall i io d,
      h_origin F h (map (fun x => hptr (snd x) (fst x)) l) (r_o r) i io d = Ret (kids_origin (map (fun x => (fst x, hnode_ray (fst x) r t0 t1)) l) (r_o r) i io d)).
    { induction l as [|[c lc] l IH]; intros P i io d1; [reflexivity|]. cbn [map fst snd h_origin kids_origin].
      assert (P' : forall c lc, In (c, lc) l -> R c lc /\ seg h lc (flat lc c)) by (intros; apply P; right; auto).
      destruct (P c lc (or_introl eq_refl)) as [RC SC]. destruct c as [|b' o' e0 e1 e2 e3]; cbn [hptr hnode_has]; [apply IH; auto|].
      cbn [flat] in SC. cbv zeta in SC. apply seg_cons in SC. destruct SC as [LC _]. rewrite (rd_live _ _ _ LC). cbn [obind hc_box].
      destruct (box_contains b' (r_o r)); [|apply IH; auto]. rewrite RC by discriminate. cbn [obind].
      destruct (hnode_ray _ r t0 t1 d1) as [[] d2]; auto. }
    assert (OT : forall l, (forall c lc, In (c, lc) l -> R c lc) -> forall i io d,
      h_other F (map (fun x => hptr (snd x) (fst x)) l) i io d = Ret (kids_other (map (fun x => (fst x, hnode_ray (fst x) r t0 t1)) l) i io d)).
    { induction l as [|[c lc] l IH]; intros P i io d1; [reflexivity|]. cbn [map fst snd h_other kids_other].
      assert (P' : forall c lc, In (c, lc) l -> R c lc) by (intros; apply P; right; auto).
      pose proof (P c lc (or_introl eq_refl)) as RC. destruct c as [|b' o' e0 e1 e2 e3]; cbn [hptr]; [apply IH; auto|].
      destruct (Nat.eqb i io); [apply IH; auto|]. rewrite RC by discriminate. cbn [obind].
      destruct (hnode_ray _ r t0 t1 d1) as [[] d2]; auto. }
    pose (l := [(c0, (lo + 1)%nat); (c1, (lo + 1 + hsize c0)%nat); (c2, (lo + 1 + hsize c0 + hsize c1)%nat); (c3, (lo + 1 + hsize c0 + hsize c1 + hsize c2)%nat)]).
    assert (PL : forall c lc, In (c, lc) l -> R c lc /\ seg h lc (flat lc c)).
    { intros c lc [E|[E|[E|[E|[]]]]]; injection E as <- <-; auto. }
    pose proof (OR l PL 0%nat 5%nat d0) as O1. cbn [l map fst snd] in O1. rewrite O1. cbn [obind].
    destruct (kids_origin _ (r_o r) 0 5 d0) as [[[] d1] io]; auto.
    apply (OT l). intros c lc IN. apply PL. auto.
  Qed.

  Definition hseg (lo : nat) (x : hmap T * bool) : heap (hcell T) :=
    match map Some (flat lo (hm_root (fst x))) with
    | [] => []
    | c :: r => (if snd x then c else None) :: r
    end.
  Lemma hseg_true : forall lo m, hseg lo (m, true) = map Some (flat lo (hm_root m)).
  Proof. intros. unfold hseg. cbn [fst snd]. destruct (flat lo (hm_root m)); auto. Qed.
  Fixpoint total (s : hstate T) : nat := match s with [] => 0 | x :: r => (hsize (hm_root (fst x)) + total r)%nat end.
  Fixpoint heapof (lo : nat) (s : hstate T) : heap (hcell T) :=
    match s with [] => [] | x :: r => hseg lo x ++ heapof (lo + hsize (hm_root (fst x))) r end.
  Fixpoint objsof (lo : nat) (s : hstate T) : heap (hobj T) :=
    match s with
    | [] => []
    | (m, alive) :: r => (if alive then Some (HObj (hm_base m) (hptr lo (hm_root m))) else None) :: objsof (lo + hsize (hm_root m)) r
    end.
  Lemma hseg_len : forall lo x, length (hseg lo x) = hsize (hm_root (fst x)).
  Proof. intros lo [m a]. unfold hseg. cbn [fst snd]. rewrite <- (flat_len _ lo). destruct (flat lo (hm_root m)) as [|c l]; cbn; auto. now rewrite map_length. Qed.
  Lemma heapof_len : forall s lo, length (heapof lo s) = total s.
  Proof. induction s as [|x s IH]; intros lo; cbn; auto. now rewrite app_length, hseg_len, IH. Qed.
  Lemma heapof_app : forall s1 s2 lo, heapof lo (s1 ++ s2) = heapof lo s1 ++ heapof (lo + total s1) s2.
  Proof. induction s1 as [|x s1 IH]; intros s2 lo; cbn. - now rewrite Nat.add_0_r. - now rewrite IH, <- app_assoc, Nat.add_assoc. Qed.
  Lemma objsof_app : forall s1 s2 lo, objsof lo (s1 ++ s2) = objsof lo s1 ++ objsof (lo + total s1) s2.
  Proof. induction s1 as [|[m a] s1 IH]; intros s2 lo; cbn. - now rewrite Nat.add_0_r. - now rewrite IH, Nat.add_assoc. Qed.
  Lemma objsof_len : forall s lo, length (objsof lo s) = length s.
  Proof. induction s as [|[m a] s IH]; intros lo; cbn; auto. Qed.
  Definition hrep (w : hworld T) (s : hstate T) : Prop := hw_nodes w = heapof 0 s /\ hw_objs w = objsof 0 s.
  Lemma hrep_push : forall w s m h', hrep w s -> h' = hw_nodes w ++ map Some (flat (length (hw_nodes w)) (hm_root m)) ->
    hrep (HWorld h' (hw_objs w ++ [Some (HObj (hm_base m) (hptr (length (hw_nodes w)) (hm_root m)))])) (s ++ [(m, true)]).
  Proof.
    intros w s m h' [A B] ->. split; cbn [hw_nodes hw_objs].
    - rewrite heapof_app, A, heapof_len. cbn [heapof Nat.add]. rewrite app_nil_r. now rewrite hseg_true.
    - rewrite objsof_app, A, B, heapof_len. reflexivity.
  Qed.
  Lemma split_nth : forall (s : hstate T) t x, nth_error s t = Some x -> s = firstn t s ++ x :: skipn (S t) s /\ length (firstn t s) = t.
  Proof.
    induction s as [|y s IH]; intros [|t] x H; try discriminate; cbn in *.
    - injection H as ->. auto.
    - destruct (IH _ _ H) as [E L]. split; [now rewrite <- E|auto].
  Qed.
  Lemma hrep_obj : forall w s t, hrep w s -> live (hw_objs w) t =
    match nth_error s t with Some (m, true) => Some (HObj (hm_base m) (hptr (total (firstn t s)) (hm_root m))) | _ => None end.
  Proof.
    intros w s t [A B]. rewrite B. destruct (nth_error s t) as [[m a]|] eqn:E.
    - destruct (split_nth _ _ _ E) as [ES EL]. rewrite ES at 1. rewrite objsof_app. cbn [objsof Nat.add].
      rewrite live_mid' by (rewrite objsof_len; auto). destruct a; auto.
    - apply live_end. rewrite objsof_len. now apply nth_error_None.
  Qed.
  Lemma hrep_seg : forall w s t m, hrep w s -> nth_error s t = Some (m, true) -> seg (hw_nodes w) (total (firstn t s)) (flat (total (firstn t s)) (hm_root m)).
  Proof.
    intros w s t m [A B] E. destruct (split_nth _ _ _ E) as [ES EL]. rewrite A. rewrite ES at 1. rewrite heapof_app. cbn [heapof Nat.add].
    set (lo := total (firstn t s)). intros i c H. unfold live.
    assert (LI : (i < length (flat lo (hm_root m)))%nat) by (apply nth_error_Some; congruence).
    rewrite nth_error_app2, heapof_len by (rewrite heapof_len; lia). replace (lo + i - total (firstn t s))%nat with i by (unfold lo; lia).
    rewrite hseg_true, nth_error_app1 by (rewrite map_length; auto). rewrite nth_error_map, H. reflexivity.
  Qed.
  Lemma hnode_copy_id : forall n : hnode T, hnode_copy n = n.
  Proof. induction n as [|b o c0 I0 c1 I1 c2 I2 c3 I3]; cbn; congruence. Qed.

  Definition hwsim (x : outcome (option (bool * T) * hstate T)) (y : outcome (option (bool * T) * hworld T)) : Prop :=
    osim x y (fun a b => fst a = fst b /\ hrep (snd b) (snd a)).
  Definition hstepsim (f : nat) (s : hstate T) (w : hworld T) (op : hop T) : Prop :=
    exists G r, (forall g, (G <= g)%nat -> hw_step f g w op = r) /\ hwsim (hv_step f s op) r.
  Definition hno_assign (op : hop T) : Prop := match op with HAssign _ _ => False | _ => True end.
  Lemma hstep_sim : forall f s w op, hno_assign op -> hrep w s -> hstepsim f s w op.
  Proof.
    intros f s w op NA W. unfold hstepsim, hwsim. destruct op as [|grid res|t|t u|t|t r t0 t1 d]; cbn [hv_step hw_step]; try contradiction.
    - exists 0%nat. eexists. split; [reflexivity|]. cbn [osim fst snd]. split; auto. apply (hrep_push w s hm_new); auto. cbn. now rewrite app_nil_r.
    - exists 0%nat. eexists. split; [reflexivity|]. destruct (from_grid f grid res) as [m| | |]; cbn [obind osim]; auto.
      rewrite build_flat. cbn [osim fst snd]. split; auto. apply hrep_push; auto.
    - unfold rd. rewrite (hrep_obj _ _ t W). destruct (nth_error s t) as [[m []]|] eqn:E; cbn [or_ub obind];
        try (exists 0%nat; eexists; split; [reflexivity|exact I]).
      cbn [ho_root ho_base]. pose proof (hrep_seg _ _ _ _ W E) as SG. set (lo := total (firstn t s)) in *.
      assert (CP : hm_copy m = m) by (unfold hm_copy; rewrite hnode_copy_id; destruct m; auto). rewrite CP.
      destruct (hm_root m) as [|b o c0 c1 c2 c3] eqn:ER; cbn [hptr].
      + exists 0%nat. eexists. split; [reflexivity|]. cbn [osim fst snd]. split; auto. pose proof (hrep_push w s m (hw_nodes w) W) as HP. rewrite ER in HP. cbn [hptr] in HP. apply HP. cbn. now rewrite app_nil_r.
      + exists (hsize (hm_root m)). eexists. split.
        * intros g L. rewrite (copy_flat (HNode b o c0 c1 c2 c3)); [|discriminate|exact SG|rewrite <- ER; exact L]. cbn [obind]. reflexivity.
        * cbn [osim fst snd]. split; auto. pose proof (hrep_push w s m) as HP. rewrite ER in HP. cbn [hptr] in HP. apply HP; auto.
    - unfold h_delete, free, rd. rewrite (hrep_obj _ _ t W). destruct (nth_error s t) as [[m []]|] eqn:E; cbn [or_ub obind];
        try (exists 0%nat; eexists; split; [reflexivity|exact I]).
      cbn [ho_root ho_base]. pose proof (hrep_seg _ _ _ _ W E) as SG. destruct W as [A B]. destruct (split_nth _ _ _ E) as [ES EL]. set (lo := total (firstn t s)) in *.
      assert (EO : upd (hw_objs w) t None = objsof 0 (firstn t s ++ [(m, false)] ++ skipn (S t) s)).
      { rewrite B. rewrite ES at 1. cbn [app]. rewrite !objsof_app. cbn [objsof app Nat.add]. now rewrite upd_mid' by (rewrite objsof_len; auto). }
      destruct (hm_root m) as [|b o c0 c1 c2 c3] eqn:ER; cbn [hptr].
      + exists 0%nat. eexists. split; [reflexivity|]. cbn [obind osim fst snd]. split; auto. split; cbn [hw_nodes hw_objs]; [|exact EO].
        rewrite A. rewrite ES at 1. cbn [app]. rewrite !heapof_app. cbn [heapof app]. unfold hseg. cbn [fst snd]. now rewrite ER.
      + cbn [flat] in SG. cbv zeta in SG. apply seg_cons in SG. destruct SG as [LA _].
        exists 0%nat. eexists. split; [reflexivity|]. rewrite LA. cbn [or_ub obind osim fst snd]. split; auto. split; cbn [hw_nodes hw_objs]; [|exact EO].
        rewrite A. rewrite ES at 1. cbn [app]. rewrite !heapof_app. cbn [heapof app Nat.add]. unfold hseg. cbn [fst snd]. rewrite ER. cbn [flat map app]. cbv zeta.
        apply upd_mid'. apply heapof_len.
    - unfold rd. rewrite (hrep_obj _ _ t W). destruct (nth_error s t) as [[m []]|] eqn:E; cbn [or_ub obind];
        try (exists 0%nat; eexists; split; [reflexivity|exact I]).
      cbn [ho_root ho_base]. pose proof (hrep_seg _ _ _ _ W E) as SG. set (lo := total (firstn t s)) in *. unfold hm_ray.
      destruct (hm_root m) as [|b o c0 c1 c2 c3] eqn:ER; cbn [hptr].
      + exists 0%nat. eexists. split; [reflexivity|]. cbn [osim fst snd]. auto.
      + exists (hsize (hm_root m)). eexists. split.
        * intros g L. rewrite (ray_flat (HNode b o c0 c1 c2 c3)); [|discriminate|exact SG|rewrite <- ER; exact L]. cbn [obind]. reflexivity.
        * cbn [osim fst snd]. auto.
  Qed.
  Lemma hrun_sim : forall f ops s w, Forall hno_assign ops -> hrep w s ->
    exists G r, (forall g, (G <= g)%nat -> hw_run f g w ops = r) /\ osim (hv_run f s ops) r (fun a b => fst a = fst b /\ hrep (snd b) (snd a)).
  Proof.
    intros f. induction ops as [|op ops IH]; intros s w NA W.
    - exists 0%nat, (hw_run f 0 w []). split; [reflexivity|]. cbn. auto.
    - inversion NA as [|? ? N1 N2]; subst. destruct (hstep_sim f s w op N1 W) as [G1 [r1 [E1 S1]]]. cbn [hv_run hw_run].
      destruct (hv_step f s op) as [[a s']| | |], r1 as [[a' w']| | |]; cbn [hwsim osim fst snd] in S1; try contradiction;
        try (exists G1; eexists; split; [intros g L; rewrite (E1 g L); cbn [obind]; reflexivity|exact I]).
      destruct S1 as [<- W']. destruct (IH s' w' N2 W') as [G2 [r2 [E2 S2]]].
      exists (Nat.max G1 G2). eexists. split; [intros g L; rewrite (E1 g) by lia; cbn [obind snd]; rewrite (E2 g) by lia; reflexivity|].
      cbn [obind snd fst]. destruct (hv_run f s' ops) as [[l s2]| | |], r2 as [[l' w2]| | |]; cbn [osim obind fst snd] in *; try contradiction; auto.
      destruct S2 as [-> W2]. auto.
  Qed.
  Lemma hrep_empty : hrep hw_empty [].
  Proof. split; reflexivity. Qed.

  (** blocks in use *)
  Definition isome {A} (x : option A) : bool := match x with Some _ => true | None => false end.
  Definition in_use {A} (h : heap A) : nat := length (filter isome h).
  Lemma in_use_all : forall A (l : list A), in_use (map Some l) = length l.
  Proof. intros A l. unfold in_use. induction l as [|x l IH]; cbn; auto. Qed.
  Lemma in_use_app : forall A (h1 h2 : heap A), in_use (h1 ++ h2) = (in_use h1 + in_use h2)%nat.
  Proof. intros. unfold in_use. now rewrite filter_app, app_length. Qed.
  Definition kept (x : hmap T * bool) : nat := if snd x then hsize (hm_root (fst x)) else pred (hsize (hm_root (fst x))).
  Lemma hseg_use : forall lo x, in_use (hseg lo x) = kept x.
  Proof.
    intros lo [m []]; unfold kept; cbn [fst snd].
    - now rewrite hseg_true, in_use_all, flat_len.
    - rewrite <- (flat_len _ lo). unfold hseg. cbn [fst snd]. destruct (flat lo (hm_root m)) as [|c l]; [reflexivity|]. cbn [map length Nat.pred].
      unfold in_use. cbn [filter isome]. apply in_use_all.
  Qed.
  Lemma heapof_use : forall s lo, in_use (heapof lo s) = list_sum (map kept s).
  Proof. induction s as [|x s IH]; intros lo; cbn [heapof map list_sum fold_right]; [reflexivity|]. rewrite in_use_app, hseg_use, IH. reflexivity. Qed.
End OwnH.
