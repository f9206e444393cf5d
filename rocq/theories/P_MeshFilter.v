(** Lemmas about Mesh::filterOverlappingVertices (src/Mesh.cpp:107-143). *)
From Coq Require Import ZArith NArith List Bool Lia.
From Verif Require Import Num MathTypes Outcome Mesh Spec NumOrd P_Mesh.
Import ListNotations.

(** *** the comparator is a strict total order *)
Lemma cmp_irrefl : forall a, cmpVec3i a a = false.
Proof. intros [[x y] z]. cbn. rewrite !Z.eqb_refl. cbn. apply Z.ltb_irrefl. Qed.
Ltac cmpsolve := repeat match goal with
  | H : context [Z.eqb ?a ?b] |- _ => destruct (Z.eqb_spec a b); cbn in H
  | |- context [Z.eqb ?a ?b] => destruct (Z.eqb_spec a b); cbn
  end; rewrite ?Z.ltb_lt, ?Z.ltb_ge in *; try lia; try congruence.
Lemma cmp_trans : forall a b c, cmpVec3i a b = true -> cmpVec3i b c = true -> cmpVec3i a c = true.
Proof. intros [[x y] z] [[x' y'] z'] [[x2 y2] z2]. unfold cmpVec3i. intros. cmpsolve. Qed.
Lemma cmp_total : forall a b, cmpVec3i a b = false -> cmpVec3i b a = false -> a = b.
Proof. intros [[x y] z] [[x' y'] z']. unfold cmpVec3i. intros. cmpsolve. f_equal; [f_equal|]; lia. Qed.
Lemma cmp_asym : forall a b, cmpVec3i a b = true -> cmpVec3i b a = false.
Proof. intros. destruct (cmpVec3i b a) eqn:E; auto. pose proof (cmp_trans _ _ _ H E). rewrite cmp_irrefl in *. discriminate. Qed.

(** equality of keys *)
Definition keyb (a b : option (Z * Z * Z)) : bool :=
  match a, b with
  | Some (x, y, z), Some (x', y', z') => (Z.eqb x x' && Z.eqb y y' && Z.eqb z z')%bool
  | None, None => true
  | _, _ => false
  end.
Lemma keyb_eq : forall a b, keyb a b = true <-> a = b.
Proof.
  intros [[[x y] z]|] [[[x' y'] z']|]; cbn; try (split; congruence).
  rewrite !andb_true_iff, !Z.eqb_eq. split; [intros [[-> ->] ->]; auto|intros [= -> -> ->]; auto].
Qed.
Lemma keyb_refl : forall a, keyb a a = true. Proof. intros. apply keyb_eq. auto. Qed.
Lemma keyb_false : forall a b, keyb a b = false <-> a <> b.
Proof. intros. rewrite <- keyb_eq. destruct (keyb a b); split; congruence. Qed.

(** *** std::map *)
Section XMap.
  Context {A : Type}.
  Fixpoint xsorted (l : list ((Z * Z * Z) * A)) : Prop :=
    match l with
    | [] => True
    | (k, _) :: r => (forall k' v, In (k', v) r -> cmpVec3i k k' = true) /\ xsorted r
    end.
  Lemma find_below : forall l k, (forall k' (v : A), In (k', v) l -> cmpVec3i k k' = true) -> xmap_find k l = None.
  Proof. destruct l as [|[k' v] r]; cbn; auto. intros k H. rewrite (H k' v); auto. Qed.
  Lemma insert_in : forall l k (v : A) k' v', In (k', v') (xmap_insert k v l) -> (k' = k) \/ In (k', v') l \/ exists w, In (k', w) l.
  Proof.
    induction l as [|[k0 v0] r IH]; cbn; intros k v k' v' H.
    - destruct H as [[= <- <-]|[]]; auto.
    - destruct (cmpVec3i k k0); cbn in H.
      + destruct H as [[= <- <-]|H]; auto.
      + destruct (cmpVec3i k0 k) eqn:E; cbn in H.
        * destruct H as [[= <- <-]|H]; auto. destruct (IH _ _ _ _ H) as [?|[?|[w ?]]]; eauto 6.
        * destruct H as [[= <- <-]|H]; eauto 6.
  Qed.
  Lemma insert_sorted : forall l k (v : A), xsorted l -> xsorted (xmap_insert k v l).
  Proof.
    induction l as [|[k0 v0] r IH]; cbn; intros k v S.
    - split; [intros k' v' []|auto].
    - destruct S as [S1 S2]. destruct (cmpVec3i k k0) eqn:E1; cbn.
      + split; [|split; auto]. intros k' v' [[= <- <-]|H]; auto. eapply cmp_trans; eauto.
      + destruct (cmpVec3i k0 k) eqn:E2; cbn; auto. split; [|apply IH; auto].
        intros k' v' H. destruct (insert_in _ _ _ _ _ H) as [->|[?|[w ?]]]; eauto.
  Qed.
  Lemma find_insert : forall l k (v : A) k', xsorted l ->
    xmap_find k' (xmap_insert k v l) = if keyb (Some k) (Some k') then Some v else xmap_find k' l.
  Proof.
    induction l as [|[k0 v0] r IH]; intros k v k' S; cbn [xmap_insert xmap_find].
    - destruct (keyb (Some k) (Some k')) eqn:E.
      + apply keyb_eq in E. injection E as ->. rewrite cmp_irrefl. auto.
      + destruct (cmpVec3i k' k) eqn:E1; auto. destruct (cmpVec3i k k') eqn:E2; auto.
        apply keyb_false in E. rewrite (cmp_total _ _ E1 E2) in E. congruence.
    - destruct S as [S1 S2]. destruct (keyb (Some k) (Some k')) eqn:E.
      + apply keyb_eq in E. injection E as ->.
        destruct (cmpVec3i k' k0) eqn:E1; cbn [xmap_find].
        * rewrite cmp_irrefl. auto.
        * destruct (cmpVec3i k0 k') eqn:E2; cbn [xmap_find]; rewrite ?E1, ?E2; auto.
          rewrite IH by auto. rewrite keyb_refl. auto.
      + apply keyb_false in E. destruct (cmpVec3i k k0) eqn:E1; cbn [xmap_find].
        * destruct (cmpVec3i k' k) eqn:E3.
          { rewrite (cmp_trans _ _ _ E3 E1). auto. }
          destruct (cmpVec3i k k') eqn:E4; auto.
          rewrite (cmp_total _ _ E3 E4) in E. congruence.
        * destruct (cmpVec3i k0 k) eqn:E2; cbn [xmap_find].
          { rewrite IH by auto. assert (keyb (Some k) (Some k') = false) as -> by (apply keyb_false; auto). auto. }
          { pose proof (cmp_total _ _ E1 E2). subst k0.
            destruct (cmpVec3i k' k) eqn:E3; auto. destruct (cmpVec3i k k') eqn:E4; auto.
            rewrite (cmp_total _ _ E3 E4) in E. congruence. }
  Qed.
End XMap.

(** *** the loop *)
Section Filter.
  Context {T : Type} {NT : Num T}.
  Notation vk := (@vert_key T NT).
  Notation firsts := (s_firsts keyb vk []).
  (** the first point of the list with the same key *)
  Definition rep (pts : list (vec3 T)) (p : vec3 T) : option (vec3 T) := find (fun q => keyb (vk p) (vk q)) pts.

  Lemma firsts_snoc : forall l v seen,
    s_firsts keyb vk seen (l ++ [v]) =
    s_firsts keyb vk seen l ++ (if existsb (keyb (vk v)) (seen ++ map vk (s_firsts keyb vk seen l)) then [] else [v]).
  Proof.
    induction l as [|a r IH]; intros v seen; cbn [app s_firsts map].
    - rewrite app_nil_r. destruct (existsb (keyb (vk v)) seen); auto.
    - destruct (existsb (keyb (vk a)) seen) eqn:E.
      + rewrite IH. auto.
      + rewrite IH. cbn. f_equal. f_equal. cbn [existsb].
        replace (existsb (keyb (vk v)) (seen ++ vk a :: map vk (s_firsts keyb vk (vk a :: seen) r)))
          with (keyb (vk v) (vk a) || existsb (keyb (vk v)) (seen ++ map vk (s_firsts keyb vk (vk a :: seen) r)))%bool; auto.
        rewrite !existsb_app. cbn. destruct (keyb (vk v) (vk a)), (existsb (keyb (vk v)) seen); auto.
  Qed.

  (** keys of firsts are the keys of l *)
  Lemma firsts_keys : forall l k, existsb (keyb k) (map vk (firsts l)) = existsb (keyb k) (map vk l).
  Proof.
    induction l as [|v l IH] using rev_ind; intros k; auto.
    rewrite firsts_snoc. cbn [app]. rewrite !map_app, !existsb_app, IH.
    destruct (existsb (keyb (vk v)) (map vk (firsts l))) eqn:E; cbn; auto.
    rewrite orb_false_r. destruct (keyb k (vk v)) eqn:E2; cbn; [|rewrite orb_false_r; auto].
    apply keyb_eq in E2. subst k. rewrite IH in E. rewrite E. auto.
  Qed.

  Lemma find_firsts : forall l p, find (fun q => keyb (vk p) (vk q)) (firsts l) = rep l p.
  Proof.
    unfold rep. induction l as [|v l IH] using rev_ind; intros p; auto.
    assert (FA : forall l1 l2, find (fun q => keyb (vk p) (vk q)) (l1 ++ l2) =
       match find (fun q => keyb (vk p) (vk q)) l1 with Some x => Some x | None => find (fun q => keyb (vk p) (vk q)) l2 end).
    { induction l1; cbn; intros; auto. destruct (keyb _ _); auto. }
    rewrite firsts_snoc. cbn [app]. rewrite !FA, IH.
    destruct (find (fun q => keyb (vk p) (vk q)) l) eqn:F; auto.
    destruct (existsb (keyb (vk v)) (map vk (firsts l))) eqn:E; cbn; auto.
    destruct (keyb (vk p) (vk v)) eqn:K; auto. apply keyb_eq in K.
    apply existsb_exists in E. destruct E as [k [I E]]. apply keyb_eq in E. apply in_map_iff in I. destruct I as [q [Q I]].
    rewrite <- IH in F. apply find_none with (x := q) in F; auto. apply keyb_false in F. congruence.
  Qed.

  (** index of the first point with a given key *)
  Fixpoint kindex (k : option (Z * Z * Z)) (l : list (vec3 T)) (i : N) : option N :=
    match l with
    | [] => None
    | p :: r => if keyb k (vk p) then Some i else kindex k r (N.succ i)
    end.
  Lemma kindex_app : forall k l v i, kindex k (l ++ [v]) i =
    match kindex k l i with Some j => Some j | None => if keyb k (vk v) then Some (i + N.of_nat (length l))%N else None end.
  Proof.
    induction l as [|p r IH]; intros; cbn [app kindex length].
    - replace (i + N.of_nat 0)%N with i by lia. auto.
    - destruct (keyb k (vk p)); auto. rewrite IH. replace (N.succ i + N.of_nat (length r))%N with (i + N.of_nat (S (length r)))%N by lia. auto.
  Qed.
  Lemma kindex_none : forall k l i, kindex k l i = None <-> existsb (keyb k) (map vk l) = false.
  Proof. induction l; cbn; intros. split; auto. destruct (keyb k (vk a)); cbn. split; discriminate. auto. Qed.
  Lemma kindex_some : forall k l i j, kindex k l i = Some j ->
    exists q, (i <= j)%N /\ nth_error l (N.to_nat (j - i)) = Some q /\ find (fun q => keyb k (vk q)) l = Some q.
  Proof.
    induction l as [|p r IH]; cbn; intros i j H; [discriminate|].
    destruct (keyb k (vk p)) eqn:E.
    - injection H as <-. exists p. rewrite N.sub_diag. split; [lia|auto].
    - destruct (IH _ _ H) as [q [A [B C]]]. exists q. split; [lia|]. split; auto.
      replace (N.to_nat (j - i)) with (S (N.to_nat (j - N.succ i))) by lia. auto.
  Qed.

  (** loop invariant *)
  Record fp_inv (don : list (vec3 T)) (pts : list (vec3 T)) (xyz : list ((Z * Z * Z) * N)) (im : list N) : Prop := {
    fp_pts : pts = firsts don;
    fp_sorted : xsorted xyz;
    fp_find : forall k, xmap_find k xyz = kindex (Some k) pts 0;
    fp_im : map Some im = map (fun v => kindex (vk v) pts 0) don
  }.

  Lemma firsts_le : forall l, length (firsts l) <= length l.
  Proof.
    induction l as [|v l IH] using rev_ind; auto. rewrite firsts_snoc, !app_length. cbn [app].
    destruct (existsb _ _); cbn; lia.
  Qed.

  Lemma im_stable : forall (don pts : list (vec3 T)) v im, map Some im = map (fun v => kindex (vk v) pts 0) don ->
    map Some im = map (fun u => kindex (vk u) (pts ++ [v]) 0) don.
  Proof.
    induction don as [|d r IH]; destruct im; cbn; intros H; try discriminate; auto.
    injection H as H1 H2. f_equal; [|auto]. rewrite kindex_app, <- H1. auto.
  Qed.

  Lemma filter_points_spec : forall olds don (m : mesh T) xyz im,
    (N.of_nat (length (don ++ olds)) < 2^32)%N ->
    fp_inv don (m_points m) xyz im ->
    match filter_points olds m xyz im with
    | Ret (m1, im') => (forall p, In p olds -> vk p <> None) /\
                       exists xyz', fp_inv (don ++ olds) (m_points m1) xyz' im'
    | UB => exists p, In p olds /\ vk p = None
    | _ => False
    end.
  Proof.
    induction olds as [|v r IH]; intros don m xyz im S I; cbn [filter_points].
    - rewrite app_nil_r. split. intros p []. eauto.
    - destruct (vk v) as [k|] eqn:K; cbn [or_ub obind]; [|exists v; cbn; auto].
      assert (S' : (N.of_nat (length ((don ++ [v]) ++ r)) < 2^32)%N) by (rewrite <- app_assoc; auto).
      assert (G : forall (m : mesh T) xyz im, fp_inv (don ++ [v]) (m_points m) xyz im ->
         match filter_points r m xyz im with
         | Ret (m1, im') => (forall p, In p (v :: r) -> vk p <> None) /\
                       exists xyz', fp_inv (don ++ v :: r) (m_points m1) xyz' im'
         | UB => exists p, In p (v :: r) /\ vk p = None
         | _ => False end).
      { intros m' xyz' im' I'. specialize (IH (don ++ [v]) m' xyz' im' S' I').
        destruct (filter_points r m' xyz' im') as [[m1 im1]| | |]; auto.
        - rewrite <- app_assoc in IH. destruct IH as [IH1 IH2]. split; auto. intros p [<-|P]; auto. congruence.
        - destruct IH as [p [P1 P2]]. exists p. cbn; auto. }
      destruct I as [I1 I2 I3 I4].
      assert (E : existsb (keyb (vk v)) (map vk (firsts don)) = match xmap_find k xyz with Some _ => true | None => false end).
      { rewrite I3, <- K. destruct (kindex (vk v) (m_points m) 0) eqn:E.
        - destruct (existsb (keyb (vk v)) (map vk (firsts don))) eqn:X; auto.
          rewrite <- I1 in X. apply (kindex_none _ _ 0%N) in X. congruence.
        - apply kindex_none in E. rewrite <- I1. auto. }
      destruct (xmap_find k xyz) as [ip|] eqn:F; [apply G|].
      + constructor; auto.
        * rewrite firsts_snoc. cbn [app]. rewrite E, app_nil_r. auto.
        * rewrite !map_app, I4. cbn. rewrite K, <- I3, F. auto.
      + unfold addPoint. apply G. cbn [invalidate m_points].
        assert (L : (N.of_nat (length (m_points m)) < 2^32)%N).
        { rewrite I1. pose proof (firsts_le don). rewrite app_length in S. cbn in S. lia. }
        rewrite u32_small by auto.
        constructor.
        * rewrite firsts_snoc. cbn [app]. rewrite E, I1. auto.
        * apply insert_sorted; auto.
        * intros k'. rewrite find_insert by auto. rewrite kindex_app, K, N.add_0_l, <- I3.
          destruct (keyb (Some k) (Some k')) eqn:Q.
          { apply keyb_eq in Q. injection Q as <-. rewrite F, keyb_refl. auto. }
          { replace (keyb (Some k') (Some k)) with false. destruct (xmap_find k' xyz); auto.
            symmetry. apply keyb_false. apply keyb_false in Q. congruence. }
        * rewrite !map_app, (im_stable _ _ v _ I4). cbn. f_equal.
          rewrite kindex_app, K, keyb_refl, <- I3, F. auto.
  Qed.

  Lemma im_at : forall (don pts : list (vec3 T)) im i, map Some im = map (fun v => kindex (vk v) pts 0) don ->
    pts = firsts don ->
    match nth_error don i with
    | Some v => exists ip q, nth_error im i = Some ip /\ nth_error pts (N.to_nat ip) = Some q /\ rep don v = Some q
    | None => nth_error im i = None
    end.
  Proof.
    intros don pts im i H P.
    assert (E : option_map Some (nth_error im i) = option_map (fun v => kindex (vk v) pts 0) (nth_error don i)).
    { rewrite <- !nth_error_map, H. auto. }
    destruct (nth_error don i) as [v|] eqn:D, (nth_error im i) as [ip|]; cbn in E; try discriminate; auto.
    injection E as E. symmetry in E. destruct (kindex_some _ _ _ _ E) as [q [A [B C]]].
    exists ip, q. rewrite N.sub_0_r in B. repeat split; auto. rewrite P in C. rewrite <- find_firsts. auto.
  Qed.

  Definition rep3 (pts : list (vec3 T)) (t : vec3 T * vec3 T * vec3 T) : vec3 T * vec3 T * vec3 T :=
    let r p := match rep pts p with Some q => q | None => p end in
    let '(a, b, c) := t in (r a, r b, r c).

  Lemma remap_spec : forall (don pts : list (vec3 T)) im, map Some im = map (fun v => kindex (vk v) pts 0) don ->
    pts = firsts don ->
    forall ts acc,
    match remap_tris im ts acc, s_soup don (map idx ts) with
    | Ret ts', Some l => exists ts1, ts' = acc ++ ts1 /\ s_soup pts (map idx ts1) = Some (map (rep3 don) l)
    | UB, None => True
    | _, _ => False
    end.
  Proof.
    intros don pts im H P. induction ts as [|[a b c] r IH]; intros acc.
    - cbn. exists []. rewrite app_nil_r. auto.
    - cbn [remap_tris map idx s_soup ti1 ti2 ti3]. rewrite !s_nth_nth_error.
      pose proof (im_at _ _ _ (N.to_nat a) H P) as A. pose proof (im_at _ _ _ (N.to_nat b) H P) as B.
      pose proof (im_at _ _ _ (N.to_nat c) H P) as C.
      destruct (nth_error don (N.to_nat a)) as [va|]; [destruct A as [ia [qa [-> [A1 A2]]]]|rewrite A; cbn; auto].
      destruct (nth_error don (N.to_nat b)) as [vb|]; [destruct B as [ib [qb [-> [B1 B2]]]]|rewrite B; cbn; auto].
      destruct (nth_error don (N.to_nat c)) as [vc|]; [destruct C as [ic [qc [-> [C1 C2]]]]|rewrite C; cbn; auto].
      cbn [or_ub obind]. specialize (IH (acc ++ [TI ia ib ic])).
      destruct (remap_tris im r (acc ++ [TI ia ib ic])) as [ts'| | |]; destruct (s_soup don (map idx r)) as [l|]; auto.
      destruct IH as [ts1 [-> S1]]. exists (TI ia ib ic :: ts1). rewrite <- app_assoc. split; auto.
      cbn [map idx s_soup ti1 ti2 ti3]. rewrite !s_nth_nth_error, A1, B1, C1, S1. cbn. rewrite A2, B2, C2. auto.
  Qed.

  Lemma remap_length : forall im ts acc ts', remap_tris im ts acc = Ret ts' -> length ts' = length acc + length ts.
  Proof.
    induction ts as [|[a b c] r IH]; cbn; intros acc ts' H.
    - injection H as <-. lia.
    - destruct (nth_error im (N.to_nat a)); cbn in H; [|discriminate].
      destruct (nth_error im (N.to_nat b)); cbn in H; [|discriminate].
      destruct (nth_error im (N.to_nat c)); cbn in H; [|discriminate].
      rewrite (IH _ _ H), app_length. cbn. lia.
  Qed.

  Lemma filter_spec : forall m : mesh T, (N.of_nat (length (m_points m)) < 2^32)%N ->
    match filterOverlapping m with
    | Ret m' => (forall p, In p (m_points m) -> vk p <> None) /\
        m_points m' = firsts (m_points m) /\
        length (m_tris m') = length (m_tris m) /\
        exists l, s_soup (m_points m) (map idx (m_tris m)) = Some l /\
                  s_soup (m_points m') (map idx (m_tris m')) = Some (map (rep3 (m_points m)) l)
    | UB => (exists p, In p (m_points m) /\ vk p = None) \/ s_soup (m_points m) (map idx (m_tris m)) = None
    | _ => False
    end.
  Proof.
    intros m S. unfold filterOverlapping.
    pose proof (filter_points_spec (m_points m) [] (MkMesh [] (m_tris m) (m_r m) (m_r2 m) (m_tc m)) [] [] S) as F.
    cbn [m_points app] in F. assert (I0 : fp_inv [] [] [] []) by (constructor; cbn; auto). specialize (F I0).
    destruct (filter_points (m_points m) _ [] []) as [[m1 im]| | |] eqn:E; cbn [obind]; auto.
    destruct F as [F1 [xyz' [I1 I2 I3 I4]]]. apply filter_points_frame in E. destruct E as [E _]. cbn in E.
    rewrite E. pose proof (remap_spec _ _ _ I4 I1 (m_tris m) []) as R.
    destruct (remap_tris im (m_tris m) []) as [ts| | |] eqn:Q; cbn [obind];
      destruct (s_soup (m_points m) (map idx (m_tris m))) as [l|]; try contradiction; auto.
    cbn [m_points m_tris]. repeat split; auto.
    - apply remap_length in Q. auto.
    - destruct R as [ts1 [-> R]]. eauto.
  Qed.

  Lemma firsts_nodup : forall l, NoDup (map vk (firsts l)).
  Proof.
    induction l as [|v l IH] using rev_ind; cbn. constructor.
    rewrite firsts_snoc. cbn [app]. destruct (existsb _ _) eqn:E.
    - rewrite app_nil_r. auto.
    - rewrite map_app. cbn. apply NoDup_rev in IH. rewrite <- (rev_involutive (map vk (firsts l) ++ [vk v])).
      apply NoDup_rev. rewrite rev_app_distr. cbn. constructor; auto.
      intros I. apply in_rev in I. assert (existsb (keyb (vk v)) (map vk (firsts l)) = true); [|congruence].
      apply existsb_exists. exists (vk v). split; auto. apply keyb_refl.
  Qed.

  Lemma firsts_id_aux : forall l seen, NoDup (map vk l) -> (forall p, In p l -> ~ In (vk p) seen) ->
    s_firsts keyb vk seen l = l.
  Proof.
    induction l as [|v l IH]; cbn; intros seen D N; auto. inversion D; subst.
    destruct (existsb (keyb (vk v)) seen) eqn:E.
    - apply existsb_exists in E. destruct E as [k [I E]]. apply keyb_eq in E. exfalso. apply (N v); subst; auto.
    - f_equal. apply IH; auto. intros p I [J|J]. apply H1. rewrite J. apply in_map; auto. apply (N p); auto.
  Qed.
  Lemma firsts_id : forall l, NoDup (map vk l) -> firsts l = l.
  Proof. intros. apply firsts_id_aux; auto. Qed.

  Lemma remap_id : forall im ts acc ts', (forall i j, nth_error im i = Some j -> N.to_nat j = i) ->
    remap_tris im ts acc = Ret ts' -> ts' = acc ++ ts.
  Proof.
    induction ts as [|[a b c] r IH]; cbn; intros acc ts' I H.
    - injection H as <-. rewrite app_nil_r. auto.
    - destruct (nth_error im (N.to_nat a)) eqn:A; cbn in H; [|discriminate].
      destruct (nth_error im (N.to_nat b)) eqn:B; cbn in H; [|discriminate].
      destruct (nth_error im (N.to_nat c)) eqn:C; cbn in H; [|discriminate].
      apply IH in H; auto. apply I in A, B, C. rewrite H, <- app_assoc. cbn. repeat f_equal; lia.
  Qed.

  Lemma filter_nodup_id : forall m m' : mesh T, (N.of_nat (length (m_points m)) < 2^32)%N ->
    NoDup (map vk (m_points m)) -> filterOverlapping m = Ret m' -> m_points m' = m_points m /\ m_tris m' = m_tris m.
  Proof.
    intros m m' S D H. unfold filterOverlapping in H.
    pose proof (filter_points_spec (m_points m) [] (MkMesh [] (m_tris m) (m_r m) (m_r2 m) (m_tc m)) [] [] S) as F.
    cbn [m_points app] in F. assert (I0 : fp_inv [] [] [] []) by (constructor; cbn; auto). specialize (F I0).
    destruct (filter_points (m_points m) _ [] []) as [[m1 im]| | |] eqn:E; cbn [obind] in H; try discriminate.
    destruct F as [F1 [xyz' [I1 I2 I3 I4]]]. apply filter_points_frame in E. destruct E as [E _]. cbn in E.
    rewrite E in H. destruct (remap_tris im (m_tris m) []) as [ts| | |] eqn:Q; cbn [obind] in H; try discriminate.
    injection H as <-. cbn. rewrite I1 in *. rewrite firsts_id in * by auto. split; auto.
    apply remap_id in Q; auto.
    intros i j J. pose proof (im_at _ _ _ i I4 (eq_sym (firsts_id _ D))) as A.
    destruct (nth_error (m_points m) i) as [v|] eqn:V; [|congruence].
    destruct A as [ip [q [A1 [A2 A3]]]]. rewrite J in A1. injection A1 as <-.
    unfold rep in A3. apply find_some in A3. destruct A3 as [_ A3]. apply keyb_eq in A3.
    apply (NoDup_nth_error (map vk (m_points m))) ; auto.
    - rewrite map_length. apply nth_error_Some. congruence.
    - rewrite !nth_error_map, A2, V. cbn. congruence.
  Qed.
End Filter.
